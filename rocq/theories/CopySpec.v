(** What a browser does with the widget. *)
From Coq Require Import List NArith Bool String.
From Verif Require Import CopyModel.
Import ListNotations.
Local Open Scope N_scope.

(** What follows the first place where [p] is. *)
Fixpoint starts (p l : text) : option text :=
  match p, l with
  | [], _ => Some l
  | a :: p, b :: l => if a =? b then starts p l else None
  | _ :: _, [] => None
  end.
Fixpoint after (p l : text) : option text :=
  match starts p l with
  | Some r => Some r
  | None => match l with [] => None | _ :: l => after p l end
  end.

(** The text before the first [c], and that behind it. *)
Fixpoint until (c : N) (l : text) : option (text * text) :=
  match l with
  | [] => None
  | x :: l => if x =? c then Some ([], l)
              else match until c l with Some (a, b) => Some (x :: a, b) | None => None end
  end.

(** The address of the link number [n] of a page.  Character references are not
    replaced here: the theorems are about texts without [&]. *)
Fixpoint href (n : nat) (page : text) : option text :=
  match after (str "<a href=" ++ [34]) page with
  | None => None
  | Some r =>
      match until 34 r, n with
      | None, _ => None
      | Some (a, _), O => Some a
      | Some (_, r), S n => href n r
      end
  end.

Definition hexval (c : N) : option N :=
  if (48 <=? c) && (c <=? 57) then Some (c - 48)
  else if (97 <=? c) && (c <=? 102) then Some (c - 87)
  else if (65 <=? c) && (c <=? 70) then Some (c - 55)
  else None.

(** The script of a [javascript:] address: percent-decoding. *)
Fixpoint unpercent (l : text) : text :=
  match l with
  | [] => []
  | c :: r =>
      if c =? 37 then
        match r with
        | a :: b :: r' =>
            match hexval a, hexval b with
            | Some x, Some y => 16 * x + y :: unpercent r'
            | _, _ => c :: unpercent r
            end
        | _ => c :: unpercent r
        end
      else c :: unpercent r
  end.

Definition hexvals (l : list N) : option N :=
  fold_left (fun acc c => match acc, hexval c with Some n, Some d => Some (16 * n + d) | _, _ => None end)
    l (Some 0).

Definition ocons (c : N) (o : option text) : option text := option_map (cons c) o.

(** The value of a string literal of JavaScript, behind the opening quote, if it
    ends the call that it is the argument of.  Escapes with one letter other than
    these, and octal ones, are left out; an escaped letter without meaning stands
    for itself. *)
Fixpoint literal (l : text) : option text :=
  match l with
  | [] => None
  | c :: r =>
      if c =? 39 then match r with [c'] => if c' =? 41 then Some [] else None | _ => None end
      else if (c =? 10) || (c =? 13) then None
      else if c =? 92 then
        match r with
        | [] => None
        | e :: r =>
            if e =? 110 then ocons 10 (literal r)
            else if e =? 116 then ocons 9 (literal r)
            else if e =? 114 then ocons 13 (literal r)
            else if e =? 120 then
              match r with
              | a :: b :: r => match hexvals [a; b] with Some n => ocons n (literal r) | None => None end
              | _ => None
              end
            else if e =? 117 then
              match r with
              | a :: b :: c :: d :: r =>
                  match hexvals [a; b; c; d] with Some n => ocons n (literal r) | None => None end
              | _ => None
              end
            else ocons e (literal r)
        end
      else ocons c (literal r)
  end.

(** What the clipboard has after a click on the link number [n]. *)
Definition copied (n : nat) (page : text) : option text :=
  match href n page with
  | None => None
  | Some a =>
      match starts (str "javascript:") a with
      | None => None
      | Some s =>
          match starts (str "navigator.clipboard.writeText('") (unpercent s) with
          | Some l => literal l
          | None => None
          end
      end
  end.

(** Texts that survive: no quotes, no [&], no percent sign before two hexadecimal
    digits, nothing outside of the basic plane. *)
Definition simple (s : text) : Prop :=
  Forall (fun c => c <> 34 /\ c <> 39 /\ c <> 38 /\ c < 65536) s /\
  forall a x y b, s = a ++ 37 :: x :: y :: b -> hexval x = None \/ hexval y = None.

(** The text that is visible: what is not in a tag. *)
Inductive mode := InText | InTag | InQuotes.
Definition opens (c : N) : bool :=
  ((65 <=? c) && (c <=? 90)) || ((97 <=? c) && (c <=? 122)) || (c =? 47) || (c =? 33) || (c =? 63).
Fixpoint visible (m : mode) (l : text) : text :=
  match l with
  | [] => []
  | c :: r =>
      match m with
      | InText =>
          if (c =? 60) && match r with d :: _ => opens d | [] => false end
          then visible InTag r else c :: visible InText r
      | InTag => if c =? 62 then visible InText r else if c =? 34 then visible InQuotes r else visible InTag r
      | InQuotes => if c =? 34 then visible InTag r else visible InQuotes r
      end
  end.

(** Nothing in [s] is taken for a tag or a character reference. *)
Definition tagless (s : text) : Prop :=
  ~ In 38 s /\ forall a d b, s = a ++ 60 :: d :: b -> opens d = false.

(** Texts one behind the other, with [sep] in between. *)
Definition pasted (sep : text) (l : list text) : text :=
  match l with
  | [] => []
  | a :: l => a ++ flat_map (fun b => sep ++ b) l
  end.

(** [t] is [s] without the white space around it. *)
Definition blank (c : N) : Prop := (9 <= c /\ c <= 13) \/ (28 <= c /\ c <= 32).
Definition trimmed (s t : text) : Prop :=
  (exists a b, s = a ++ t ++ b /\ Forall blank a /\ Forall blank b) /\
  (forall c r, t = c :: r -> ~ blank c) /\ (forall c r, t = r ++ [c] -> ~ blank c).

(** The cells' contents, one below the other. *)
Definition contents (cs : list cell) : text := pasted [10] (map content cs).

(** Each cell with its number, separated by empty lines. *)
Definition numbered (cs : list cell) : text :=
  pasted [10; 10] (map (fun c => str "# Cell " ++ dec (counter c) ++ [10] ++ content c) cs).

(** What is to be copied: the contents, formatted if that is asked for; and the
    text of the slice with or without headers. *)
Definition is_code (black : option (text -> text)) (cs : list cell) (t : text) : Prop :=
  match black with
  | Some f => trimmed (f (contents cs)) t
  | None => t = contents cs
  end.
Definition is_text (headers : bool) (cs : list cell) (t : text) : Prop :=
  trimmed (if headers then numbered cs else contents cs) t.
