From Coq Require Import String Ascii List ZArith Bool DecimalString Lia.
From Coq Require DecimalZ DecimalPos DecimalFacts.
From Verif Require Import NameModel NameSpec.
Import ListNotations.
Local Open Scope string_scope.

Lemma app_assoc_s : forall a b c : string, (a ++ b) ++ c = a ++ (b ++ c).
Proof. induction a as [|x a IH]; intros; cbn; [reflexivity|]. now rewrite IH. Qed.

Lemma app_nil_s : forall a : string, a ++ "" = a.
Proof. induction a as [|x a IH]; cbn; [reflexivity|]. now rewrite IH. Qed.

Lemma all_imp : forall (p q : ascii -> bool) s, (forall c, p c = true -> q c = true) -> all p s = true -> all q s = true.
Proof.
  intros p q s H. induction s as [|c s IH]; cbn; [auto|]. rewrite !andb_true_iff. intros (A & B). auto.
Qed.

Definition word (c : ascii) : bool := (negb (c =? ".")%char && negb (c =? "[")%char && negb (c =? "]")%char)%bool.

Lemma ident_word : forall s, identifier s = true -> all word s = true.
Proof.
  intros [|c s] H; [discriminate|]. cbn in *. apply andb_true_iff in H. destruct H as (H & T).
  assert (W : forall d, (letter d || (Nat.leb 48 (nat_of_ascii d) && Nat.leb (nat_of_ascii d) 57))%bool = true -> word d = true).
  { intros [[] [] [] [] [] [] [] []]; vm_compute; auto. }
  apply andb_true_iff. split; [apply W; now rewrite H|]. now apply (all_imp _ word s W).
Qed.

Lemma uint_word : forall u, all is_digit (NilEmpty.string_of_uint u) = true.
Proof. induction u; cbn; auto. Qed.

Lemma uint_digits : forall u, all is_digit (NilZero.string_of_uint u) = true.
Proof. intros u. unfold NilZero.string_of_uint. destruct u; try apply uint_word. reflexivity. Qed.

Lemma int_word : forall z, all word (show_int z) = true.
Proof.
  intros z. unfold show_int. assert (W : forall c, is_digit c = true -> word c = true).
  { intros [[] [] [] [] [] [] [] []]; vm_compute; auto. }
  destruct (Z.to_int z) as [u|u]; cbn.
  - apply (all_imp _ _ _ W), uint_digits.
  - apply (all_imp _ _ _ W), uint_digits.
Qed.

Lemma to_int_ok : forall z, NilZero.int_of_string (show_int z) = Some (Z.to_int z).
Proof.
  intros z. unfold show_int. apply NilZero.isi; destruct z as [|p|p]; cbn; try discriminate;
    intros E; injection E; apply DecimalPos.Unsigned.to_uint_nonnil.
Qed.

Lemma show_int_nonempty : forall z, show_int z <> "".
Proof. intros z E. pose proof (to_int_ok z) as H. rewrite E in H. discriminate. Qed.

Lemma int_decimal : forall z, (0 <= z)%Z -> isdecimal (show_int z) = true.
Proof.
  intros z H. unfold isdecimal. apply andb_true_iff. split.
  - apply negb_true_iff, String.eqb_neq, show_int_nonempty.
  - destruct z as [|p|p]; [reflexivity|apply uint_digits|lia].
Qed.

Lemma ident_decimal : forall s, identifier s = true -> isdecimal s = false.
Proof.
  intros [|c s] H; [discriminate|]. cbn in *. apply andb_true_iff in H. destruct H as (H & _).
  assert (W : letter c = true -> is_digit c = false) by (destruct c as [[] [] [] [] [] [] [] []]; vm_compute; auto).
  rewrite W; auto.
Qed.

Lemma ident_nonempty : forall s, identifier s = true -> s <> "".
Proof. intros [|c s]; discriminate. Qed.

(** Reading. *)
Lemma scan_ident : forall s acc r, all word s = true -> scan Ident acc (s ++ r) = scan Ident (acc ++ s) r.
Proof.
  induction s as [|c s IH]; intros acc r H; cbn [append]; [now rewrite app_nil_s|].
  cbn [all] in H. apply andb_true_iff in H. destruct H as (W & H). unfold word in W.
  apply andb_true_iff in W. destruct W as (W & _). apply andb_true_iff in W. destruct W as (A & B).
  apply negb_true_iff in A, B. cbn [scan]. rewrite A, B, IH by auto. rewrite app_assoc_s. reflexivity.
Qed.

Lemma scan_sub : forall s acc r, all word s = true -> scan Sub acc (s ++ r) = scan Sub (acc ++ s) r.
Proof.
  induction s as [|c s IH]; intros acc r H; cbn [append]; [now rewrite app_nil_s|].
  cbn [all] in H. apply andb_true_iff in H. destruct H as (W & H). unfold word in W.
  apply andb_true_iff in W. destruct W as (_ & B).
  apply negb_true_iff in B. cbn [scan]. rewrite B, IH by auto. rewrite app_assoc_s. reflexivity.
Qed.

(** The text of a step behind others. *)
Definition tail1 (st : step) : string :=
  if fst st then "[" ++ show (snd st) ++ "]" else "." ++ show (snd st).
Definition tails (l : list step) : string := fold_right (fun st acc => tail1 st ++ acc) "" l.

Lemma tails_app : forall a b, tails (a ++ b) = tails a ++ tails b.
Proof. induction a as [|x a IH]; intros b; cbn; [reflexivity|]. now rewrite IH, app_assoc_s. Qed.

Lemma scan_after : forall l, Forall ordinary l -> scan After "" (tails l) = Some l /\
  forall s, identifier s = true -> scan Ident s (tails l) = Some ((false, NStr s) :: l).
Proof.
  induction l as [|st l IH]; intros F.
  - split; [reflexivity|]. intros s H. cbn. now rewrite H.
  - inversion F as [|? ? O G]; subst. destruct (IH G) as (A & B). destruct st as [[] [t|z]]; cbn in O; try contradiction.
    + assert (S : scan Sub "" (show_int z ++ "]" ++ tails l) = Some ((true, NInt z) :: l)).
      { rewrite scan_sub by apply int_word. cbn. rewrite to_int_ok, A, DecimalZ.of_to. reflexivity. }
      change (tails ((true, NInt z) :: l)) with (("[" ++ show_int z ++ "]") ++ tails l).
      rewrite !app_assoc_s. split.
      * exact S.
      * intros s H. change (scan Ident s ("[" ++ show_int z ++ "]" ++ tails l)) with
          (if identifier s then option_map (cons (false, NStr s)) (scan Sub "" (show_int z ++ "]" ++ tails l)) else None).
        rewrite H, S. reflexivity.
    + assert (S : scan Ident "" (t ++ tails l) = Some ((false, NStr t) :: l)).
      { rewrite scan_ident by (now apply ident_word). now apply B. }
      change (tails ((false, NStr t) :: l)) with (("." ++ t) ++ tails l).
      rewrite !app_assoc_s. split.
      * exact S.
      * intros s H. change (scan Ident s ("." ++ t ++ tails l)) with
          (if identifier s then option_map (cons (false, NStr s)) (scan Ident "" (t ++ tails l)) else None).
        rewrite H, S. reflexivity.
Qed.

Lemma read_tails : forall x l, identifier x = true -> Forall ordinary l ->
  read (x ++ tails l) = Some ((false, NStr x) :: l).
Proof.
  intros x l H F. unfold read. rewrite scan_ident by (now apply ident_word). now apply scan_after.
Qed.

Lemma nonempty_app : forall a b : string, a <> "" -> (a ++ b =? "") = false.
Proof. intros [|c a] b H; [contradiction|]. reflexivity. Qed.

(** Namespaces from the outermost one. *)
Lemma path_snoc : forall x f l ns, identifier x = true -> Forall ordinary l -> Forall2 named ns l ->
  path (rev ns ++ [mkNs x f]) = x ++ tails l.
Proof.
  intros x f l ns H. revert ns. induction l as [|st l IH] using rev_ind; intros ns F N.
  - inversion N; subst. cbn. now rewrite app_nil_s.
  - apply Forall2_app_inv_r in N. destruct N as (n1 & n2 & N1 & N2 & -> ).
    inversion N2 as [|n ? ? ? (NM & FS) N3]; subst. inversion N3; subst.
    apply Forall_app in F. destruct F as (F & O). inversion O as [|? ? O1 _]; subst.
    rewrite rev_app_distr. cbn [rev app path]. rewrite (IH n1 F N1).
    rewrite nonempty_app by (now apply ident_nonempty).
    rewrite tails_app, NM. cbn [tails fold_right]. rewrite app_nil_s.
    destruct st as [[] [t|z]]; cbn in O1; try contradiction; cbn [show snd fst] in *.
    + assert (E : (isdecimal (show_int z) || first_sub n)%bool = true).
      { destruct FS as [ -> |Z]; [apply orb_true_r|]. now rewrite int_decimal. }
      rewrite E. unfold tail1. cbn [fst snd show]. now rewrite !app_assoc_s.
    + rewrite ident_decimal by auto. destruct FS as [ -> |[]]. unfold tail1. cbn. now rewrite !app_assoc_s.
Qed.

Lemma qualified_reads : forall x f l ns sub nm,
  identifier x = true -> Forall ordinary l -> Forall2 named ns l -> ordinary (sub, nm) ->
  read (qualified (rev ns ++ [mkNs x f]) nm sub) = Some ((false, NStr x) :: l ++ [(sub, nm)]).
Proof.
  intros x f l ns sub nm H F N O.
  assert (E : qualified (rev ns ++ [mkNs x f]) nm sub = x ++ tails (l ++ [(sub, nm)])).
  { unfold qualified. destruct (rev ns ++ [mkNs x f])%list as [|a r] eqn:Q; [now destruct (rev ns)|]. rewrite <- Q.
    rewrite (path_snoc x f l ns) by auto. rewrite nonempty_app by (now apply ident_nonempty).
    rewrite tails_app. cbn [tails fold_right]. rewrite app_nil_s.
    destruct sub, nm as [t|z]; cbn in O; try contradiction; unfold tail1; cbn [fst snd show orb].
    - now rewrite !app_assoc_s.
    - rewrite ident_decimal by auto. now rewrite !app_assoc_s. }
  rewrite E. apply read_tails; auto. apply Forall_app. auto.
Qed.
