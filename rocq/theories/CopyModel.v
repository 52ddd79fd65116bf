(** Model of the widget that shows a slice: [_make_slice_widget],
    [core/ipyflow/slicing/mixin.py] lines 85-149, and
    [_get_slice_text_from_slice], lines 78-83.

    Texts are lists of code points.  Left out: [black] (a function on texts
    here), the class of the HTML object. *)
From Coq Require Import List NArith Bool String Ascii DecimalString.
Import ListNotations.
Local Open Scope N_scope.

Definition text := list N.

(** A literal of the source. *)
Definition str (s : string) : text := map N_of_ascii (list_ascii_of_string s).

(** A number in an f-string. *)
Definition dec (n : N) : text := str (NilZero.string_of_uint (N.to_uint n)).

(** The last [k] hexadecimal digits, as Python writes them. *)
Definition digit (d : N) : N := if d <? 10 then 48 + d else 87 + d.
Fixpoint hex (k : nat) (n : N) : text :=
  match k with
  | O => []
  | S k => hex k (n / 16) ++ [digit (n mod 16)]
  end.

(** [.encode("unicode_escape").decode("utf-8")], lines 145-146. *)
Definition escape1 (c : N) : text :=
  if c =? 92 then [92; 92]
  else if c =? 9 then [92; 116]
  else if c =? 10 then [92; 110]
  else if c =? 13 then [92; 114]
  else if (32 <=? c) && (c <=? 126) then [c]
  else if c <? 256 then [92; 120] ++ hex 2 c
  else if c <? 65536 then [92; 117] ++ hex 4 c
  else [92; 85] ++ hex 8 c.
Definition escape (s : text) : text := flat_map escape1 s.

Fixpoint join (sep : text) (l : list text) : text :=
  match l with
  | [] => []
  | [a] => a
  | a :: l => a ++ sep ++ join sep l
  end.

(** [str.strip], of the ASCII white space. *)
Definition is_space (c : N) : bool := ((9 <=? c) && (c <=? 13)) || ((28 <=? c) && (c <=? 32)).
Fixpoint lstrip (s : text) : text :=
  match s with
  | c :: r => if is_space c then lstrip r else s
  | [] => []
  end.
Definition strip (s : text) : text := rev (lstrip (rev (lstrip s))).

(** The cells of a slice, in the order of their counters (lines 82, 104, 119):
    counter, contents, and the position if the cell is current and has one (106-110). *)
Record cell := mkCell { counter : N; content : text; place : option N }.

(** Lines 78-83; [headers] is [include_cell_headers]. *)
Definition slice_text (headers : bool) (cs : list cell) : text :=
  strip (join (if headers then [10; 10] else [10])
    (map (fun c => if headers then str "# Cell " ++ dec (counter c) ++ [10] ++ content c else content c) cs)).

Inductive iface := Jupyter | Lab | Other.

(** Lines 90-103. *)
Definition selector (i : iface) : option text :=
  match i with
  | Jupyter => Some (str "javascript:document.getElementById('notebook-container')")
  | Lab => Some (str "javascript:document.getElementById(document.querySelector('.jp-mod-current').dataset.id).children[2].children[0].children[0]")
  | Other => None
  end.

(** Lines 104-118. *)
Definition rendered (i : iface) (c : cell) : text :=
  match selector i, place c with
  | Some sel, Some p =>
      str "# <a href=" ++ [34] ++ sel ++ str ".children[" ++ dec p ++ str "].scrollIntoView()" ++ [34]
      ++ str ">Cell " ++ dec (counter c) ++ str "</a>"
  | _, _ => str "# Cell " ++ dec (counter c)
  end.
Definition linked (i : iface) (cs : list cell) : text :=
  join [10; 10] (map (fun c => rendered i c ++ [10] ++ content c) cs).

(** Lines 126-131. *)
Definition classes (i : iface) : text :=
  match i with
  | Jupyter => str "output_subarea output_text output_stream output_stdout"
  | Lab => str "lm-Widget p-Widget jp-RenderedText jp-OutputArea-output"
  | Other => []
  end.

Definition copy_link (s name : text) : text :=
  str "<a href=" ++ [34] ++ str "javascript:navigator.clipboard.writeText('" ++ escape s ++ str "')" ++ [34]
  ++ str ">" ++ name ++ str "</a>".

(** Lines 119-149; [black]: [None] if [blacken] is off. *)
Definition widget (i : iface) (headers : bool) (black : option (text -> text)) (cs : list cell) : text :=
  let plain := join [10] (map content cs) in
  let plain := match black with Some f => strip (f plain) | None => plain end in
  [10] ++ str "<div class=" ++ [34] ++ classes i ++ [34] ++ str ">" ++ [10] ++ str "<pre>" ++ [10]
  ++ copy_link plain (str "Copy code") ++ str " | " ++ copy_link (slice_text headers cs) (str "Copy cells")
  ++ [10; 10] ++ linked i cs ++ [10] ++ str "</pre>" ++ [10] ++ str "</div>" ++ [10].
