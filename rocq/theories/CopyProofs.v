From Coq Require Import List NArith Bool String Ascii Lia DecimalString.
From Verif Require Import CopyModel CopySpec.
Import ListNotations.
Local Open Scope N_scope.

(** What the model copies and shows. *)
Definition code_of (black : option (text -> text)) (cs : list cell) : text :=
  match black with
  | Some f => strip (f (join [10] (map content cs)))
  | None => join [10] (map content cs)
  end.
Definition headed (cs : list cell) : text :=
  join [10; 10] (map (fun c => str "# Cell " ++ dec (counter c) ++ [10] ++ content c) cs).

Lemma join_pasted : forall sep l, join sep l = pasted sep l.
Proof.
  intros sep. induction l as [|a l IH]; [reflexivity|]. destruct l as [|b l]; cbn in *; [now rewrite app_nil_r|].
  rewrite IH, <- !app_assoc. reflexivity.
Qed.

Lemma blank_space : forall c, is_space c = true <-> blank c.
Proof.
  intros c. unfold is_space, blank. rewrite orb_true_iff, !andb_true_iff, !N.leb_le. tauto.
Qed.

Lemma lstrip_spec : forall s, exists a, s = a ++ lstrip s /\ Forall blank a /\
  forall c r, lstrip s = c :: r -> ~ blank c.
Proof.
  induction s as [|c r (a & E & F & H)]; [exists []; repeat split; auto; discriminate|].
  cbn [lstrip]. destruct (is_space c) eqn:S.
  - exists (c :: a). split; [cbn; now rewrite <- E|]. split; auto. constructor; auto. now apply blank_space.
  - exists []. split; auto. split; auto. intros d t G. injection G as <- <-. rewrite <- blank_space, S. discriminate.
Qed.

Lemma strip_trimmed : forall s, trimmed s (strip s).
Proof.
  intros s. unfold strip. destruct (lstrip_spec s) as (a & E & F & H).
  destruct (lstrip_spec (rev (lstrip s))) as (b & E2 & F2 & H2).
  set (t := lstrip (rev (lstrip s))) in *.
  assert (G : lstrip s = rev t ++ rev b).
  { rewrite <- rev_app_distr, <- E2, rev_involutive. reflexivity. }
  split; [|split].
  - exists a, (rev b). rewrite <- G. split; [exact E|]. split; auto. now apply Forall_rev.
  - intros c r K. apply (H c (r ++ rev b)). rewrite G, K. reflexivity.
  - intros c r K. apply (H2 c (rev r)). apply (f_equal (@rev N)) in K. rewrite rev_involutive, rev_app_distr in K. exact K.
Qed.

(** Digits. *)
Lemma digit_range : forall d, d < 16 -> (48 <= digit d <= 57) \/ (97 <= digit d <= 102).
Proof. intros d H. unfold digit. destruct (N.ltb_spec d 10); lia. Qed.

Lemma hexval_digit : forall d, d < 16 -> hexval (digit d) = Some d.
Proof.
  intros d H. unfold digit, hexval. destruct (N.ltb_spec d 10) as [L|L].
  - assert (A : (48 <=? 48 + d) && (48 + d <=? 57) = true) by (apply andb_true_iff; split; apply N.leb_le; lia).
    rewrite A. f_equal. lia.
  - assert (A : (48 <=? 87 + d) && (87 + d <=? 57) = false) by (apply andb_false_iff; right; apply N.leb_gt; lia).
    assert (B : (97 <=? 87 + d) && (87 + d <=? 102) = true) by (apply andb_true_iff; split; apply N.leb_le; lia).
    rewrite A, B. f_equal. lia.
Qed.

Lemma hex_range : forall k n x, In x (hex k n) -> (48 <= x <= 57) \/ (97 <= x <= 102).
Proof.
  induction k as [|k IH]; intros n x; cbn [hex]; [intros []|].
  rewrite in_app_iff. intros [H|[ <- |[]]]; [now apply (IH (n / 16))|].
  apply digit_range. apply N.mod_lt. lia.
Qed.

Lemma hexvals_snoc : forall l d, hexvals (l ++ [d]) =
  match hexvals l, hexval d with Some n, Some v => Some (16 * n + v) | _, _ => None end.
Proof. intros. unfold hexvals. rewrite fold_left_app. reflexivity. Qed.

Lemma hexvals_hex : forall k n, n < 16 ^ N.of_nat k -> hexvals (hex k n) = Some n.
Proof.
  induction k as [|k IH]; intros n H.
  - cbn in H. cbn. f_equal. lia.
  - cbn [hex]. rewrite hexvals_snoc, hexval_digit by (apply N.mod_lt; lia).
    rewrite IH.
    + f_equal. symmetry. apply N.div_mod. lia.
    + apply N.div_lt_upper_bound; [lia|]. rewrite Nnat.Nat2N.inj_succ, N.pow_succ_r' in H. exact H.
Qed.

Lemma uint_digits : forall u, Forall (fun c => 48 <= c <= 57) (str (NilEmpty.string_of_uint u)).
Proof. induction u; cbn; constructor; auto; lia. Qed.

Lemma dec_digits : forall n, Forall (fun c => 48 <= c <= 57) (dec n).
Proof.
  intros n. unfold dec, NilZero.string_of_uint. destruct (N.to_uint n) eqn:E;
    try (rewrite <- E; apply uint_digits); try apply (uint_digits (_ _)).
  cbn. constructor; [lia|constructor].
Qed.

(** Escapes. *)
Lemma escape_cases : forall c, 
  (escape1 c = [c] /\ c <> 92 /\ 32 <= c <= 126) \/
  (exists r, escape1 c = 92 :: r /\ (c = 92 \/ c = 9 \/ c = 10 \/ c = 13 \/ c < 32 \/ 126 < c) /\
     forall x, In x r -> x = 92 \/ x = 116 \/ x = 110 \/ x = 114 \/ x = 120 \/ x = 117 \/ x = 85 \/
                         (48 <= x <= 57) \/ (97 <= x <= 102)).
Proof.
  intros c. unfold escape1.
  destruct (N.eqb_spec c 92); [right; eexists; split; [reflexivity|]; split; [auto|]; intros x [ <- |[]]; auto|].
  destruct (N.eqb_spec c 9); [right; eexists; split; [reflexivity|]; split; [auto|]; intros x [ <- |[]]; auto 9|].
  destruct (N.eqb_spec c 10); [right; eexists; split; [reflexivity|]; split; [auto|]; intros x [ <- |[]]; auto 9|].
  destruct (N.eqb_spec c 13); [right; eexists; split; [reflexivity|]; split; [auto 9|]; intros x [ <- |[]]; auto 9|].
  destruct ((32 <=? c) && (c <=? 126)) eqn:E.
  - apply andb_true_iff in E. destruct E as (E & F). apply N.leb_le in E, F. left. auto.
  - assert (O : c < 32 \/ 126 < c).
    { apply andb_false_iff in E. destruct E as [E|E]; apply N.leb_gt in E; lia. }
    right. destruct (c <? 256); [|destruct (c <? 65536)];
      (eexists; split; [reflexivity|]; split; [tauto|]; intros x H;
       destruct H as [ <- |H]; [auto 12|apply hex_range in H; tauto]).
Qed.

Lemma escape_quotes : forall s, ~ In 34 s -> ~ In 34 (escape s).
Proof.
  intros s N H. unfold escape in H. apply in_flat_map in H. destruct H as (c & I & H).
  destruct (escape_cases c) as [(E & _)|(r & E & _ & R)]; rewrite E in H.
  - destruct H as [ -> |[]]. contradiction.
  - destruct H as [H|H]; [lia|]. apply R in H. lia.
Qed.

(** No percent sign before two digits, as a function. *)
Definition ishex (c : N) : bool := match hexval c with Some _ => true | None => false end.
Fixpoint pf (l : text) : bool :=
  match l with
  | [] => true
  | c :: r => (negb (c =? 37) || match r with a :: b :: _ => negb (ishex a && ishex b) | _ => true end) && pf r
  end.

Lemma pf_intro : forall s,
  (forall a x y b, s = a ++ 37 :: x :: y :: b -> hexval x = None \/ hexval y = None) -> pf s = true.
Proof.
  induction s as [|c r IH]; intros H; [reflexivity|]. cbn [pf]. apply andb_true_iff. split.
  - destruct (N.eqb_spec c 37) as [ -> |]; [|reflexivity]. cbn [negb orb].
    destruct r as [|x [|y r]]; auto. unfold ishex.
    destruct (H [] x y r eq_refl) as [E|E]; rewrite E; [reflexivity|]. now rewrite andb_false_r.
  - apply IH. intros a x y b E. apply (H (c :: a) x y b). now rewrite E.
Qed.

Lemma unpercent_pf : forall s, pf s = true -> unpercent s = s.
Proof.
  induction s as [|c r IH]; intros H; [reflexivity|]. cbn [pf] in H. apply andb_true_iff in H. destruct H as (H & P).
  specialize (IH P). cbn [unpercent]. destruct (c =? 37); [|now rewrite IH]. cbn [negb orb] in H.
  destruct r as [|a [|b r]]; [reflexivity|now rewrite IH|]. unfold ishex in H.
  destruct (hexval a); [|now rewrite IH]. destruct (hexval b); [discriminate|now rewrite IH].
Qed.

Lemma pf_skip : forall a l, ~ In 37 a -> pf (a ++ l) = pf l.
Proof.
  induction a as [|c a IH]; intros l N; [reflexivity|]. cbn [pf app].
  destruct (N.eqb_spec c 37) as [E|E]; [exfalso; apply N; left; auto|]. cbn [negb orb andb].
  apply IH. intros H. apply N. now right.
Qed.

Lemma pf_app_l : forall a b, pf (a ++ b) = true -> pf a = true.
Proof.
  induction a as [|c a IH]; intros b H; [reflexivity|]. cbn [pf app] in *. apply andb_true_iff in H.
  destruct H as (H & P). apply andb_true_iff. split; [|now apply (IH b)].
  destruct (c =? 37); [|reflexivity]. cbn [negb orb] in *. destruct a as [|x [|y a]]; auto.
Qed.

Lemma pf_app_r : forall a b, pf (a ++ b) = true -> pf b = true.
Proof.
  induction a as [|c a IH]; intros b H; [exact H|]. cbn [pf app] in H. apply andb_true_iff in H.
  destruct H as (_ & P). now apply IH.
Qed.

Lemma pf_line : forall a b, pf a = true -> pf b = true -> pf (a ++ 10 :: b) = true.
Proof.
  induction a as [|c a IH]; intros b A B; [cbn [app pf]; now rewrite B|].
  cbn [pf app] in *. apply andb_true_iff in A. destruct A as (H & P). rewrite (IH b P B), andb_true_r.
  destruct (c =? 37); [|reflexivity]. cbn [negb orb] in *.
  destruct a as [|x [|y a]]; cbn [app]; auto.
  - destruct b; reflexivity.
  - unfold ishex at 2. cbn. now rewrite andb_false_r.
Qed.

(** Texts that survive. *)
Definition fine (s : text) : Prop :=
  Forall (fun c => c <> 34 /\ c <> 39 /\ c <> 38 /\ c < 65536) s /\ pf s = true.

Lemma simple_fine : forall s, simple s -> fine s.
Proof. intros s (A & B). split; [exact A|now apply pf_intro]. Qed.

Lemma fine_line : forall a b, fine a -> fine b -> fine (a ++ 10 :: b).
Proof.
  intros a b (A1 & A2) (B1 & B2). split; [|now apply pf_line].
  apply Forall_app. split; auto. constructor; auto. lia.
Qed.

Lemma fine_join : forall l, Forall fine l -> fine (join [10] l) /\ fine (join [10; 10] l).
Proof.
  induction l as [|a l IH]; intros F; [repeat split; constructor|].
  inversion F as [|? ? A B]; subst. destruct (IH B) as (C & D). destruct l as [|b l]; [auto|].
  change (join [10] (a :: b :: l)) with (a ++ 10 :: join [10] (b :: l)).
  change (join [10; 10] (a :: b :: l)) with (a ++ 10 :: ([] ++ 10 :: join [10; 10] (b :: l))).
  split; apply fine_line; auto. apply fine_line; auto. split; constructor.
Qed.

Lemma lstrip_suffix : forall s, exists a, s = a ++ lstrip s.
Proof.
  induction s as [|c r (a & IH)]; [exists []; reflexivity|]. cbn [lstrip]. destruct (is_space c).
  - exists (c :: a). cbn. now rewrite <- IH.
  - exists []. reflexivity.
Qed.

Lemma fine_strip : forall s, fine s -> fine (strip s).
Proof.
  intros s (A & B). unfold strip. destruct (lstrip_suffix s) as (a & E).
  destruct (lstrip_suffix (rev (lstrip s))) as (b & F).
  apply (f_equal (@rev N)) in F. rewrite rev_involutive, rev_app_distr in F.
  rewrite F in E. split.
  - rewrite E in A. apply Forall_app in A. destruct A as (_ & A). now apply Forall_app in A.
  - rewrite E in B. apply pf_app_r in B. now apply pf_app_l in B.
Qed.

Lemma fine_header : forall n, fine (str "# Cell " ++ dec n).
Proof.
  intros n. pose proof (dec_digits n) as D. split.
  - apply Forall_app. split; [cbn; repeat constructor; lia|].
    eapply Forall_impl; [|exact D]. cbn. intros. lia.
  - rewrite <- (app_nil_r (_ ++ _)). apply pf_skip. rewrite in_app_iff. intros [H|H].
    + cbn in H. lia.
    + rewrite Forall_forall in D. apply D in H. lia.
Qed.

Lemma fine_slice : forall headers cs,
  (forall c, In c cs -> simple (content c)) -> fine (slice_text headers cs).
Proof.
  intros headers cs H. unfold slice_text. apply fine_strip.
  assert (F : Forall fine (map (fun c => if headers then str "# Cell " ++ dec (counter c) ++ [10] ++ content c else content c) cs)).
  { apply Forall_map, Forall_forall. intros c I. specialize (H c I). apply simple_fine in H.
    destruct headers; auto. rewrite app_assoc. apply fine_line; auto. apply fine_header. }
  destruct headers; now apply fine_join.
Qed.

Lemma fine_code : forall black cs,
  (forall c, In c cs -> simple (content c)) ->
  (forall f, black = Some f -> simple (code_of black cs)) ->
  fine (code_of black cs).
Proof.
  intros black cs H B. destruct black as [f|]; [apply simple_fine; now apply (B f)|]. unfold code_of.
  apply fine_join, Forall_map, Forall_forall. intros c I. now apply simple_fine, H.
Qed.

(** The literal. *)
Lemma hexval_92 : forall c, (exists r, escape1 c = 92 :: r) \/ (escape1 c = [c]).
Proof. intros c. destruct (escape_cases c) as [(E & _)|(r & E & _)]; eauto. Qed.

Lemma pf_escape : forall s, pf s = true -> pf (escape s ++ [39; 41]) = true.
Proof.
  induction s as [|c s IH]; intros P; [reflexivity|].
  change (escape (c :: s)) with (escape1 c ++ escape s). rewrite <- app_assoc.
  cbn [pf] in P. apply andb_true_iff in P. destruct P as (H & P). specialize (IH P).
  destruct (N.eqb_spec c 37) as [ -> |N].
  - change (escape1 37) with [37]. cbn [app pf]. rewrite IH, andb_true_r. cbn [N.eqb negb orb] in *.
    destruct s as [|x s]; [reflexivity|]. change (escape (x :: s)) with (escape1 x ++ escape s).
    destruct (hexval_92 x) as [(r & E)|E]; rewrite E.
    + cbn [app]. destruct ((r ++ escape s) ++ [39; 41]) as [|? ?]; reflexivity.
    + cbn [app]. destruct s as [|y s].
      * cbn. unfold ishex. destruct (hexval x); reflexivity.
      * change (escape (y :: s)) with (escape1 y ++ escape s).
        destruct (hexval_92 y) as [(r & F)|F]; rewrite F; cbn [app]; [|exact H].
        unfold ishex at 2. cbn. now rewrite andb_false_r.
  - rewrite pf_skip; auto. intros I.
    destruct (escape_cases c) as [(E & _)|(r & E & _ & R)]; rewrite E in I; destruct I as [I|I]; try lia; try (now destruct I).
    apply R in I. lia.
Qed.

Lemma literal_char : forall c r, c <> 39 -> c < 65536 -> literal (escape1 c ++ r) = ocons c (literal r).
Proof.
  intros c r Q B. unfold escape1.
  destruct (N.eqb_spec c 92) as [ -> |N1]; [reflexivity|].
  destruct (N.eqb_spec c 9) as [ -> |N2]; [reflexivity|].
  destruct (N.eqb_spec c 10) as [ -> |N3]; [reflexivity|].
  destruct (N.eqb_spec c 13) as [ -> |N4]; [reflexivity|].
  destruct ((32 <=? c) && (c <=? 126)).
  - cbn [app literal]. apply N.eqb_neq in Q, N1, N3, N4. now rewrite Q, N3, N4, N1.
  - destruct (N.ltb_spec c 256) as [L|L].
    + pose proof (hexvals_hex 2 c L) as H.
      change (hex 2 c) with [digit ((c / 16) mod 16); digit (c mod 16)] in *.
      change (literal (([92; 120] ++ [digit ((c / 16) mod 16); digit (c mod 16)]) ++ r))
        with (match hexvals [digit ((c / 16) mod 16); digit (c mod 16)] with Some n => ocons n (literal r) | None => None end).
      now rewrite H.
    + apply N.ltb_lt in B as B'. rewrite B'. pose proof (hexvals_hex 4 c B) as H.
      change (hex 4 c) with [digit ((c / 16 / 16 / 16) mod 16); digit ((c / 16 / 16) mod 16); digit ((c / 16) mod 16); digit (c mod 16)] in *.
      change (literal (([92; 117] ++ [digit ((c / 16 / 16 / 16) mod 16); digit ((c / 16 / 16) mod 16); digit ((c / 16) mod 16); digit (c mod 16)]) ++ r))
        with (match hexvals [digit ((c / 16 / 16 / 16) mod 16); digit ((c / 16 / 16) mod 16); digit ((c / 16) mod 16); digit (c mod 16)] with Some n => ocons n (literal r) | None => None end).
      now rewrite H.
Qed.

Lemma literal_escape : forall s, Forall (fun c => c <> 34 /\ c <> 39 /\ c <> 38 /\ c < 65536) s ->
  literal (escape s ++ [39; 41]) = Some s.
Proof.
  induction s as [|c s IH]; intros F; [reflexivity|]. inversion F as [|? ? (A & B & C & D) G]; subst.
  change (escape (c :: s)) with (escape1 c ++ escape s). rewrite <- app_assoc.
  rewrite literal_char by auto. now rewrite IH.
Qed.

(** The page. *)
Lemma until_app : forall c a b, ~ In c a -> until c (a ++ c :: b) = Some (a, b).
Proof.
  induction a as [|x a IH]; intros b N; cbn [app until]; [now rewrite N.eqb_refl|].
  destruct (N.eqb_spec x c) as [E|E]; [exfalso; apply N; now left|].
  rewrite IH; auto. intros H. apply N. now right.
Qed.

Lemma starts_app : forall p l, starts p (p ++ l) = Some l.
Proof. induction p as [|a p IH]; intros l; cbn; [reflexivity|]. now rewrite N.eqb_refl, IH. Qed.

Definition address (s : text) : text :=
  str "javascript:navigator.clipboard.writeText('" ++ escape s ++ [39; 41].

Lemma fine_quotes : forall s, fine s -> ~ In 34 s.
Proof. intros s (F & _) I. rewrite Forall_forall in F. apply F in I. lia. Qed.

Lemma address_quotes : forall s, ~ In 34 s -> ~ In 34 (address s).
Proof.
  intros s N I. unfold address in I. rewrite !in_app_iff in I. destruct I as [I|[I|I]].
  - cbn in I. lia.
  - now apply escape_quotes in I.
  - cbn in I. lia.
Qed.

Lemma address_copies : forall s, fine s ->
  match starts (str "javascript:") (address s) with
  | None => None
  | Some s => match starts (str "navigator.clipboard.writeText('") (unpercent s) with
              | Some l => literal l | None => None end
  end = Some s.
Proof.
  intros s (F & P).
  change (address s) with (str "javascript:" ++ str "navigator.clipboard.writeText('" ++ escape s ++ [39; 41]).
  rewrite starts_app, unpercent_pf.
  - rewrite starts_app. now apply literal_escape.
  - rewrite pf_skip by (cbn; lia). now apply pf_escape.
Qed.

Lemma copy_link_eq : forall s name r,
  copy_link s name ++ r = str "<a href=" ++ [34] ++ address s ++ 34 :: (str ">" ++ name ++ str "</a>" ++ r).
Proof. intros. unfold copy_link, address. rewrite <- !app_assoc. reflexivity. Qed.

Lemma widget_eq : forall i headers black cs, exists pre post,
  widget i headers black cs =
  ([10] ++ str "<div class=" ++ [34] ++ classes i ++ [34] ++ str ">" ++ [10] ++ str "<pre>" ++ [10]) ++
  (str "<a href=" ++ [34]) ++ address (code_of black cs) ++ 34 :: pre ++
  (str "<a href=" ++ [34]) ++ address (slice_text headers cs) ++ 34 :: post /\
  pre = str ">Copy code</a> | ".
Proof.
  intros. eexists (str ">Copy code</a> | "), _. split; [|reflexivity].
  unfold widget. fold (code_of black cs).
  change (match black with Some f => strip (f (join [10] (map content cs))) | None => join [10] (map content cs) end)
    with (code_of black cs).
  rewrite (copy_link_eq (code_of black cs)), (copy_link_eq (slice_text headers cs)).
  destruct i; reflexivity.
Qed.

Lemma after_front : forall i l,
  after (str "<a href=" ++ [34])
    (([10] ++ str "<div class=" ++ [34] ++ classes i ++ [34] ++ str ">" ++ [10] ++ str "<pre>" ++ [10]) ++
     (str "<a href=" ++ [34]) ++ l) = Some l.
Proof. intros [] l; reflexivity. Qed.

Lemma after_middle : forall l,
  after (str "<a href=" ++ [34]) (str ">Copy code</a> | " ++ (str "<a href=" ++ [34]) ++ l) = Some l.
Proof. reflexivity. Qed.

Lemma copied_code : forall i headers black cs, fine (code_of black cs) ->
  copied 0 (widget i headers black cs) = Some (code_of black cs).
Proof.
  intros i headers black cs F. destruct (widget_eq i headers black cs) as (pre & post & -> & -> ).
  unfold copied. cbn [href]. rewrite after_front, until_app by (apply address_quotes, fine_quotes, F).
  now apply address_copies.
Qed.

Lemma copied_cells : forall i headers black cs,
  ~ In 34 (code_of black cs) -> fine (slice_text headers cs) ->
  copied 1 (widget i headers black cs) = Some (slice_text headers cs).
Proof.
  intros i headers black cs N F. destruct (widget_eq i headers black cs) as (pre & post & -> & -> ).
  unfold copied. cbn [href]. rewrite after_front, until_app by (now apply address_quotes).
  rewrite after_middle, until_app by (apply address_quotes, fine_quotes, F).
  now apply address_copies.
Qed.

(** What is visible. *)
Lemma visible_text : forall a l, ~ In 60 a -> visible InText (a ++ l) = a ++ visible InText l.
Proof.
  induction a as [|c a IH]; intros l N; [reflexivity|]. cbn [app visible].
  destruct (N.eqb_spec c 60) as [E|E]; [exfalso; apply N; now left|]. cbn [andb].
  rewrite IH; auto. intros H. apply N. now right.
Qed.

Lemma visible_quotes : forall a l, ~ In 34 a -> visible InQuotes (a ++ 34 :: l) = visible InTag l.
Proof.
  induction a as [|c a IH]; intros l N; [reflexivity|]. cbn [app visible].
  destruct (N.eqb_spec c 34) as [E|E]; [exfalso; apply N; now left|].
  apply IH. intros H. apply N. now right.
Qed.

Lemma visible_content : forall s l, tagless s ->
  visible InText (s ++ 10 :: l) = s ++ 10 :: visible InText l.
Proof.
  induction s as [|c s IH]; intros l (A & T); [reflexivity|].
  assert (T' : tagless s).
  { split; [intros H; apply A; now right|]. intros a d b E. apply (T (c :: a) d b). now rewrite E. }
  cbn [app visible].
  assert (E : (c =? 60) && match s ++ 10 :: l with d :: _ => opens d | [] => false end = false).
  { destruct (N.eqb_spec c 60) as [ -> |]; [|reflexivity]. cbn [andb].
    destruct s as [|d s]; [reflexivity|]. cbn [app]. apply (T [] d s eq_refl). }
  rewrite E, IH; auto.
Qed.

Lemma dec_not : forall n c, c < 48 \/ 57 < c -> ~ In c (dec n).
Proof. intros n c H I. pose proof (dec_digits n) as D. rewrite Forall_forall in D. apply D in I. lia. Qed.

Lemma visible_link : forall sel n l, ~ In 34 sel ->
  visible InText (str "# <a href=" ++ [34] ++ sel ++ [34] ++ str ">Cell " ++ dec n ++ str "</a>" ++ l)
  = str "# Cell " ++ dec n ++ visible InText l.
Proof.
  intros sel n l N.
  change (visible InText (str "# <a href=" ++ [34] ++ sel ++ [34] ++ str ">Cell " ++ dec n ++ str "</a>" ++ l))
    with (str "# " ++ visible InQuotes (sel ++ 34 :: (str ">Cell " ++ dec n ++ str "</a>" ++ l))).
  rewrite visible_quotes by auto.
  change (visible InTag (str ">Cell " ++ dec n ++ str "</a>" ++ l))
    with (str "Cell " ++ visible InText (dec n ++ str "</a>" ++ l)).
  rewrite visible_text by (apply dec_not; lia). reflexivity.
Qed.

Lemma visible_rendered : forall i c l,
  visible InText (rendered i c ++ 10 :: l) = (str "# Cell " ++ dec (counter c)) ++ 10 :: visible InText l.
Proof.
  intros i c l. unfold rendered.
  assert (P : forall r, visible InText ((str "# Cell " ++ dec (counter c)) ++ 10 :: r)
                        = (str "# Cell " ++ dec (counter c)) ++ 10 :: visible InText r).
  { intros r. rewrite visible_text; [reflexivity|]. rewrite in_app_iff. intros [H|H]; [cbn in H; lia|].
    revert H. apply dec_not. lia. }
  destruct (selector i) as [sel|] eqn:S; [|apply P]. destruct (place c) as [p|]; [|apply P].
  pose proof (visible_link (sel ++ str ".children[" ++ dec p ++ str "].scrollIntoView()") (counter c) (10 :: l)) as V.
  rewrite <- !app_assoc in V. rewrite <- !app_assoc. rewrite V.
  - reflexivity.
  - rewrite !in_app_iff. intros [H|[H|[H|H]]].
    + destruct i; try discriminate S; injection S as <-; cbn in H; lia.
    + cbn in H. lia.
    + revert H. apply dec_not. lia.
    + cbn in H. lia.
Qed.

Lemma visible_linked : forall i cs l,
  (forall c, In c cs -> tagless (content c)) ->
  visible InText (linked i cs ++ 10 :: l) = headed cs ++ 10 :: visible InText l.
Proof.
  intros i cs. unfold linked, headed. induction cs as [|c cs IH]; intros l T; [reflexivity|].
  assert (TC : tagless (content c)) by (apply T; now left).
  assert (TS : forall c, In c cs -> tagless (content c)) by (intros; apply T; now right).
  specialize (IH l TS). destruct cs as [|d cs].
  - cbn [map join]. rewrite <- !app_assoc. cbn [app]. rewrite visible_rendered, visible_content by auto.
    rewrite <- !app_assoc. reflexivity.
  - cbn [map] in *. set (R := join [10; 10] (_ :: map (fun c => rendered i c ++ [10] ++ content c) cs)) in *.
    set (Q := join [10; 10] (_ :: map (fun c => str "# Cell " ++ dec (counter c) ++ [10] ++ content c) cs)) in *.
    change (join [10; 10] ((rendered i c ++ [10] ++ content c) :: (rendered i d ++ [10] ++ content d) :: map (fun c => rendered i c ++ [10] ++ content c) cs))
      with ((rendered i c ++ [10] ++ content c) ++ [10; 10] ++ R).
    change (join [10; 10] ((str "# Cell " ++ dec (counter c) ++ [10] ++ content c) :: (str "# Cell " ++ dec (counter d) ++ [10] ++ content d) :: map (fun c => str "# Cell " ++ dec (counter c) ++ [10] ++ content c) cs))
      with ((str "# Cell " ++ dec (counter c) ++ [10] ++ content c) ++ [10; 10] ++ Q).
    rewrite <- !app_assoc. cbn [app]. rewrite visible_rendered, visible_content by auto.
    change (visible InText (10 :: R ++ 10 :: l)) with (10 :: visible InText (R ++ 10 :: l)). rewrite IH.
    rewrite <- !app_assoc. reflexivity.
Qed.

Lemma visible_copy : forall s name l, ~ In 34 s -> ~ In 60 name ->
  visible InText (copy_link s name ++ l) = name ++ visible InText l.
Proof.
  intros s name l N M. rewrite copy_link_eq.
  change (visible InText (str "<a href=" ++ [34] ++ address s ++ 34 :: str ">" ++ name ++ str "</a>" ++ l))
    with (visible InQuotes (address s ++ 34 :: str ">" ++ name ++ str "</a>" ++ l)).
  rewrite visible_quotes by (now apply address_quotes).
  change (visible InTag (str ">" ++ name ++ str "</a>" ++ l)) with (visible InText (name ++ str "</a>" ++ l)).
  rewrite visible_text by auto. reflexivity.
Qed.

Lemma visible_widget : forall i headers black cs,
  ~ In 34 (code_of black cs) -> ~ In 34 (slice_text headers cs) ->
  (forall c, In c cs -> tagless (content c)) ->
  visible InText (widget i headers black cs) =
  [10; 10; 10] ++ str "Copy code | Copy cells" ++ [10; 10] ++ numbered cs ++ [10; 10; 10].
Proof.
  intros i headers black cs A B T. unfold widget.
  change (match black with Some f => strip (f (join [10] (map content cs))) | None => join [10] (map content cs) end)
    with (code_of black cs).
  set (r1 := copy_link (code_of black cs) _ ++ _).
  assert (E : visible InText ([10] ++ str "<div class=" ++ [34] ++ classes i ++ [34] ++ str ">" ++ [10] ++ str "<pre>" ++ [10] ++ r1)
              = [10; 10; 10] ++ visible InText r1) by (destruct i; reflexivity).
  rewrite E. unfold r1. rewrite visible_copy by (auto; cbn; lia).
  rewrite (visible_text (str " | ")) by (cbn; lia).
  rewrite visible_copy by (auto; cbn; lia).
  change (visible InText ([10; 10] ++ linked i cs ++ [10] ++ str "</pre>" ++ [10] ++ str "</div>" ++ [10]))
    with ([10; 10] ++ visible InText (linked i cs ++ 10 :: (str "</pre>" ++ [10] ++ str "</div>" ++ [10]))).
  rewrite visible_linked by auto. unfold headed, numbered. rewrite join_pasted. reflexivity.
Qed.

(** How a percent sign in front of two digits is found in a given text. *)
Fixpoint no_percent (l : text) : bool :=
  match l with
  | [] => true
  | c :: r => (if c =? 37 then match r with
                               | a :: b :: _ => match hexval a, hexval b with Some _, Some _ => false | _, _ => true end
                               | _ => true end else true) && no_percent r
  end.
Lemma no_percent_ok : forall s, no_percent s = true ->
  forall a x y b, s = a ++ 37 :: x :: y :: b -> hexval x = None \/ hexval y = None.
Proof.
  intros s H a. revert s H. induction a as [|c a IH]; intros s H x y b ->; cbn [no_percent app] in H;
    apply andb_prop in H; destruct H as (H & R).
  - cbn in H. destruct (hexval x); [|now left]. destruct (hexval y); [discriminate|now right].
  - now apply (IH _ R x y b).
Qed.
Fixpoint no_tag (l : text) : bool :=
  match l with
  | [] => true
  | c :: r => (if c =? 60 then match r with d :: _ => negb (opens d) | [] => true end else true) && no_tag r
  end.
Lemma no_tag_ok : forall s, no_tag s = true -> forall a d b, s = a ++ 60 :: d :: b -> opens d = false.
Proof.
  intros s H a. revert s H. induction a as [|c a IH]; intros s H d b ->; cbn [no_tag app] in H;
    apply andb_prop in H; destruct H as (H & R).
  - cbn in H. destruct (opens d); [discriminate|reflexivity].
  - now apply (IH _ R d b).
Qed.

Lemma chars_ok : forall s,
  forallb (fun c => negb (c =? 34) && negb (c =? 39) && negb (c =? 38) && (c <? 65536)) s = true ->
  Forall (fun c => c <> 34 /\ c <> 39 /\ c <> 38 /\ c < 65536) s.
Proof.
  intros s H. apply Forall_forall. intros c I. rewrite forallb_forall in H. specialize (H c I).
  apply andb_prop in H. destruct H as (H & A). apply andb_prop in H. destruct H as (H & B).
  apply andb_prop in H. destruct H as (C & D). apply N.ltb_lt in A.
  apply negb_true_iff, N.eqb_neq in B, C, D. auto.
Qed.

Lemma code_is : forall black cs, is_code black cs (code_of black cs).
Proof.
  intros [f|] cs; unfold is_code, code_of, contents; rewrite join_pasted; [apply strip_trimmed|reflexivity].
Qed.

Lemma text_is : forall headers cs, is_text headers cs (slice_text headers cs).
Proof.
  intros headers cs. unfold is_text, slice_text. destruct headers; rewrite join_pasted; apply strip_trimmed.
Qed.

Lemma trimmed_fun : forall s t u, trimmed s t -> trimmed s u -> t = u.
Proof.
  intros s t u ((a & b & E & A & B) & L & R) ((a' & b' & E' & A' & B') & L' & R').
  assert (ALL : forall (x y z : text), Forall blank x -> Forall blank y -> x ++ y = z -> Forall blank z).
  { intros x y z X Y <-. now apply Forall_app. }
  assert (FRONT : forall (a a' p q : text), Forall blank a -> Forall blank a' -> a ++ p = a' ++ q ->
            (forall c r, p = c :: r -> ~ blank c) -> (forall c r, q = c :: r -> ~ blank c) -> p = q).
  { induction a0 as [|c a0 IH]; intros [|c' a0'] p q X Y Z P Q; cbn in Z; auto.
    - exfalso. apply (P c' (a0' ++ q) Z). now inversion Y.
    - exfalso. symmetry in Z. apply (Q c (a0 ++ p) Z). now inversion X.
    - injection Z as <- Z. inversion X; inversion Y; subst. now apply (IH a0' p q). }
  assert (NB : forall (t b : text), (forall c r, t = c :: r -> ~ blank c) -> t <> [] ->
            forall c r, t ++ b = c :: r -> ~ blank c).
  { intros [|x t0] b0 P N c r Z; [contradiction|]. injection Z as <- _. now apply (P x t0). }
  destruct t as [|x t].
  - destruct u as [|y u]; auto. exfalso.
    assert (F : Forall blank s) by (rewrite E; cbn; now apply Forall_app).
    rewrite E' in F. apply Forall_app in F. destruct F as (_ & F). inversion F; subst. now apply (L' y u).
  - destruct u as [|y u].
    { exfalso. assert (F : Forall blank s) by (rewrite E'; cbn; now apply Forall_app).
      rewrite E in F. apply Forall_app in F. destruct F as (_ & F). inversion F; subst. now apply (L x t). }
    assert (G : (x :: t) ++ b = (y :: u) ++ b').
    { apply (FRONT a a'); auto; [congruence| |]; apply NB; auto; discriminate. }
    apply (f_equal (@rev N)) in G. rewrite !rev_app_distr in G.
    assert (K : rev (x :: t) = rev (y :: u)).
    { apply (FRONT (rev b) (rev b')); auto; try (now apply Forall_rev).
      - intros c r Z. apply (f_equal (@rev N)) in Z. rewrite rev_involutive in Z. now apply (R c (rev r)).
      - intros c r Z. apply (f_equal (@rev N)) in Z. rewrite rev_involutive in Z. now apply (R' c (rev r)). }
    apply (f_equal (@rev N)) in K. now rewrite !rev_involutive in K.
Qed.

Lemma code_of_unique : forall black cs t, is_code black cs t -> t = code_of black cs.
Proof.
  intros [f|] cs t H; pose proof (code_is) as C.
  - apply (trimmed_fun (f (contents cs))); [exact H|apply (C (Some f) cs)].
  - rewrite H. symmetry. apply (C None cs).
Qed.

Lemma slice_text_unique : forall headers cs t, is_text headers cs t -> t = slice_text headers cs.
Proof. intros headers cs t H. eapply trimmed_fun; [exact H|apply text_is]. Qed.
