(** Proofs about declared annotations. *)
From Coq Require Import List Arith Bool Lia.
From Verif Require Import Base DeclModel DeclSpec.
Import ListNotations.

Lemma decl_ind' (P : decl -> Prop) :
  (forall mods c, P (DClass mods c)) -> (forall mods f, P (DFun mods f)) -> P DRaise -> P DSkip ->
  (forall b ds, Forall P ds -> P (DWhen b ds)) -> forall d, P d.
Proof.
  intros A B C D E. fix IH 1. intros [mods c|mods f| | |b ds];
    [apply A|apply B|exact C|exact D|].
  apply E. induction ds as [|d ds Q]; constructor; [apply IH|exact Q].
Qed.

Lemma reg1_when : forall file ds s,
  reg1 file (DWhen true ds) s =
  (fst (reg file ds s), match snd (reg file ds s) with Ok ms => Ok (supd [file] ms) | Err x => Err x end).
Proof.
  intros file ds s. cbn.
  match goal with |- (let (s1, r) := ?g ds s in _) = _ => assert (E : forall ds s, g ds s = reg file ds s) end.
  { clear. induction ds as [|d ds IH]; intros s; cbn; [auto|].
    destruct (reg1 file d s) as [s1 [ms|]]; [|auto]. now rewrite IH. }
  rewrite E. now destruct (reg file ds s).
Qed.

Lemma NoDup_mods : forall mods file, NoDup (mods_or mods file).
Proof.
  intros mods file. unfold mods_or.
  pose proof (NoDup_supd [] mods (NoDup_nil _)) as N.
  destruct (supd [] mods); [|auto]. constructor; [intros []|constructor].
Qed.

Lemma mods_about : forall m mods file, memb m (mods_or mods file) = about m mods file.
Proof.
  intros m mods file. unfold mods_or, about. destruct mods as [|a mods]; [reflexivity|].
  destruct (supd [] (a :: mods)) eqn:E.
  - exfalso. apply (supd_nonempty [] (a :: mods)); [right; discriminate|auto].
  - rewrite <- E. destruct (memb m (a :: mods)) eqn:M.
    + apply memb_In. apply In_supd. right. now apply memb_In.
    + apply memb_nIn. rewrite In_supd. apply memb_nIn in M. intros [[]|H]. contradiction.
Qed.

Lemma listed_push : forall {V} (d : dict (list V)) k v m,
  listed (push d k v) m = listed d m ++ if m =? k then [v] else [].
Proof.
  intros V d k v m. unfold push. unfold listed at 1. rewrite dget_dset.
  destruct (Nat.eqb_spec m k) as [ -> |NE]; [reflexivity|]. now rewrite app_nil_r.
Qed.

Lemma listed_fold : forall {V} l (d : dict (list V)) v m,
  NoDup l ->
  listed (fold_left (fun x k => push x k v) l d) m = listed d m ++ if memb m l then [v] else [].
Proof.
  intros V l. induction l as [|k l IH]; intros d v m N; cbn; [now rewrite app_nil_r|].
  inversion N; subst. rewrite IH, listed_push by auto.
  change (existsb (Nat.eqb m) l) with (memb m l).
  destruct (Nat.eqb_spec m k) as [ -> |NE]; cbn.
  - assert (M : memb k l = false) by now apply memb_nIn. rewrite M. now rewrite app_nil_r.
  - now rewrite app_nil_r.
Qed.

(** What registering without an exception does, for one module. *)
Record adds (m : nat) (fs : list fnspec) (cs : list clspec) (s s1 : st) (ms : list nat) : Prop := {
  a_fun : listed (functions s1) m = listed (functions s) m ++ fs;
  a_cls : listed (classes s1) m = listed (classes s) m ++ cs;
  a_load : loaded s1 = loaded s;
  a_bm : by_method s1 = by_method s;
  a_bf : by_function s1 = by_function s;
  a_in : (fs = [] /\ cs = []) \/ In m ms
}.

Lemma adds_seq : forall m f1 c1 f2 c2 s s1 s2 m1 m2,
  adds m f1 c1 s s1 m1 -> adds m f2 c2 s1 s2 m2 ->
  adds m (f1 ++ f2) (c1 ++ c2) s s2 (supd m1 m2).
Proof.
  intros m f1 c1 f2 c2 s s1 s2 m1 m2 [A B C D E F] [A' B' C' D' E' F']. constructor.
  - now rewrite A', A, app_assoc.
  - now rewrite B', B, app_assoc.
  - congruence.
  - congruence.
  - congruence.
  - rewrite In_supd. destruct F as [[-> ->]|F]; [|auto]. destruct F' as [[-> ->]|F']; auto.
Qed.

Lemma adds_none : forall m s ms, adds m [] [] s s ms.
Proof. intros m s ms. constructor; rewrite ?app_nil_r; auto. Qed.

Lemma says_cons : forall m file d ds,
  says_fun m file (d :: ds) = says_fun m file [d] ++ says_fun m file ds /\
  says_class m file (d :: ds) = says_class m file [d] ++ says_class m file ds.
Proof.
  intros m file d ds. unfold says_fun, says_class. cbn [flat_map].
  rewrite !flat_map_app, !app_nil_r. auto.
Qed.

Lemma clean_cons : forall d ds, clean (d :: ds) -> clean [d] /\ clean ds.
Proof.
  intros d ds C. split; intros x X; apply C; cbn in *; apply in_or_app.
  - rewrite app_nil_r in X. auto.
  - auto.
Qed.

Lemma reg_adds : forall m file ds,
  Forall (fun d => forall s, clean [d] -> exists s1 ms,
    reg1 file d s = (s1, Ok ms) /\ adds m (says_fun m file [d]) (says_class m file [d]) s s1 ms) ds ->
  forall s, clean ds -> exists s1 ms,
    reg file ds s = (s1, Ok ms) /\ adds m (says_fun m file ds) (says_class m file ds) s s1 ms.
Proof.
  intros m file ds. induction ds as [|d ds IH]; intros F s C; cbn [reg].
  - exists s, []. split; [auto|apply adds_none].
  - inversion F; subst. apply clean_cons in C as [C1 C2].
    destruct (H1 s C1) as (s1 & ms & E & A). rewrite E.
    destruct (IH H2 s1 C2) as (s2 & ns & E2 & A2). rewrite E2.
    exists s2, (supd ms ns). split; [auto|].
    destruct (says_cons m file d ds) as (Q1 & Q2). rewrite Q1, Q2. now apply (adds_seq _ _ _ _ _ s s1).
Qed.

Lemma reg1_adds : forall m file d s, clean [d] -> exists s1 ms,
  reg1 file d s = (s1, Ok ms) /\ adds m (says_fun m file [d]) (says_class m file [d]) s s1 ms.
Proof.
  intros m file. refine (decl_ind' _ _ _ _ _ _).
  - intros mods c s _. cbn. eexists _, _. split; [reflexivity|].
    unfold says_fun, says_class. cbn. rewrite app_nil_r.
    constructor; cbn; rewrite ?app_nil_r; auto.
    + rewrite listed_fold by apply NoDup_mods. now rewrite mods_about.
    + destruct (about m mods file) eqn:B; [|auto]. right. apply memb_In. now rewrite mods_about.
  - intros mods f s _. cbn. eexists _, _. split; [reflexivity|].
    unfold says_fun, says_class. cbn. rewrite app_nil_r.
    constructor; cbn; rewrite ?app_nil_r; auto.
    + rewrite listed_fold by apply NoDup_mods. now rewrite mods_about.
    + destruct (about m mods file) eqn:B; [|auto]. right. apply memb_In. now rewrite mods_about.
  - intros s C. specialize (C DRaise (or_introl eq_refl)). discriminate.
  - intros s _. exists s, [file]. split; [reflexivity|apply adds_none].
  - intros b ds F s C. destruct b.
    + rewrite reg1_when.
      assert (C1 : clean ds) by (intros x X; apply C; cbn; now rewrite app_nil_r).
      destruct (reg_adds m file ds F s C1) as (s1 & ms & E & A). rewrite E. cbn [fst snd].
      exists s1, (supd [file] ms). split; [auto|].
      assert (Q : says_fun m file [DWhen true ds] = says_fun m file ds /\
                  says_class m file [DWhen true ds] = says_class m file ds)
        by (unfold says_fun, says_class; cbn; now rewrite app_nil_r).
      destruct Q as (-> & ->). apply (adds_seq m [] [] _ _ s s s1 [file] ms); [apply adds_none|auto].
    + exists s, [file]. split; [reflexivity|apply adds_none].
Qed.

Lemma reg_clean : forall m file ds s, clean ds -> exists s1 ms,
  reg file ds s = (s1, Ok ms) /\ adds m (says_fun m file ds) (says_class m file ds) s s1 ms.
Proof.
  intros m file ds s C. apply reg_adds; [|auto]. apply Forall_forall. intros d _. apply reg1_adds.
Qed.

Lemma files_clean : forall m fs s, (forall f ds, In (f, ds) fs -> clean ds) -> exists s1 ms,
  reg_files fs s = (s1, Ok ms) /\
  adds m (flat_map (fun p => says_fun m (fst p) (snd p)) fs)
         (flat_map (fun p => says_class m (fst p) (snd p)) fs) s s1 ms.
Proof.
  intros m fs. induction fs as [|[file ds] fs IH]; intros s C; cbn.
  - exists s, []. split; [auto|apply adds_none].
  - destruct (reg_clean m file ds s) as (s1 & ms & E & A); [apply (C file); now left|].
    rewrite E. destruct (IH s1) as (s2 & ns & E2 & A2); [intros f d I; apply (C f); now right|].
    rewrite E2. exists s2, (supd ms ns). split; [auto|]. now apply (adds_seq _ _ _ _ _ s s1).
Qed.

(** ** Compiling *)
Lemma names_fold : forall h l (d : dict nat) n,
  dwf d ->
  dwf (fold_left (fun d n => dset d n h) l d) /\
  dget (fold_left (fun d n => dset d n h) l d) n = if memb n l then Some h else dget d n.
Proof.
  intros h l. induction l as [|k l IH]; intros d n W; cbn [fold_left]; [auto|].
  destruct (IH (dset d k h) n (dwf_dset d k h W)) as (A & B). split; [auto|]. rewrite B, dget_dset.
  change (memb n (k :: l)) with ((n =? k) || memb n l)%bool.
  destruct (memb n l); [now rewrite orb_true_r|]. now rewrite orb_false_r.
Qed.

Lemma compile_functions_fold : forall fs (d : dict nat) n,
  dwf d ->
  let r := fold_left (fun d f =>
               match f_handler f with
               | None => d
               | Some h => fold_left (fun d n => dset d n h) (f_names f) d
               end) fs d in
  dwf r /\ dget r n = match last_hit n fs with Some h => Some h | None => dget d n end.
Proof.
  intros fs. induction fs as [|f fs IH]; intros d n W; cbn; [auto|].
  unfold hit. destruct (f_handler f) as [h|] eqn:H.
  - destruct (names_fold h (f_names f) d n W) as (A & B).
    destruct (IH _ n A) as (C & D). split; [auto|]. rewrite D, B.
    destruct (last_hit n fs); [auto|]. now destruct (memb n (f_names f)).
  - destruct (IH d n W) as (C & D). split; [auto|]. rewrite D.
    destruct (last_hit n fs); [auto|]. now destruct (memb n (f_names f)).
Qed.

Lemma compile_functions_get : forall fs n,
  dwf (compile_functions fs) /\ dget (compile_functions fs) n = last_hit n fs.
Proof.
  intros fs n. destruct (compile_functions_fold fs [] n dwf_nil) as (A & B). split; [exact A|].
  unfold compile_functions. cbv zeta in B. rewrite B. cbn. now destruct (last_hit n fs).
Qed.

Lemma compile_classes_fold : forall cs (d : dict (dict nat)) n,
  dwf d ->
  let r := fold_left (fun d c => dset d (c_name c) (compile_functions (c_funs c))) cs d in
  dwf r /\ dget r n = match last_class n cs with Some c => Some (compile_functions (c_funs c)) | None => dget d n end.
Proof.
  intros cs. induction cs as [|c cs IH]; intros d n W; cbn; [auto|].
  destruct (IH (dset d (c_name c) (compile_functions (c_funs c))) n (dwf_dset _ _ _ W)) as (A & B).
  split; [auto|]. rewrite B, dget_dset. destruct (last_class n cs); [auto|].
  rewrite (Nat.eqb_sym n (c_name c)). now destruct (c_name c =? n).
Qed.

Lemma compile_classes_get : forall cs n,
  dwf (compile_classes cs) /\
  dget (compile_classes cs) n = option_map (fun c => compile_functions (c_funs c)) (last_class n cs).
Proof.
  intros cs n. destruct (compile_classes_fold cs [] n dwf_nil) as (A & B). split; [exact A|].
  unfold compile_classes. cbv zeta in B. rewrite B. cbn. now destruct (last_class n cs).
Qed.

(** What compiling leaves alone. *)
Definition stays (s s1 : st) : Prop :=
  classes s1 = classes s /\ functions s1 = functions s /\ loaded s1 = loaded s.

Lemma stays_fold : forall {A} (g : st -> A -> st) l s,
  (forall s x, stays s (g s x)) -> stays s (fold_left g l s).
Proof.
  intros A g l. induction l as [|x l IH]; intros s G; cbn; [repeat split|].
  destruct (IH (g s x) G) as (a & b & c). destruct (G s x) as (a' & b' & c').
  repeat split; congruence.
Qed.

Lemma stays_method : forall w c s x, stays s (put_method w c s x).
Proof. intros w c s x. unfold put_method. destruct (cattr _ _ _); repeat split. Qed.

Lemma stays_class : forall w m s x, stays s (put_class w m s x).
Proof.
  intros w m s x. unfold put_class. destruct (attr _ _ _); [|repeat split].
  apply stays_fold. intros. apply stays_method.
Qed.

Lemma stays_function : forall w m s x, stays s (put_function w m s x).
Proof. intros w m s x. unfold put_function. destruct (attr _ _ _); repeat split. Qed.

Lemma stays_compile : forall w m s, stays s (compile w m s).
Proof.
  intros w m s. unfold compile.
  destruct (stays_fold (put_class w m) (compile_classes (listed (classes s) m)) s (stays_class w m)) as (a & b & c).
  destruct (stays_fold (put_function w m) (compile_functions (listed (functions s) m))
             (fold_left (put_class w m) (compile_classes (listed (classes s) m)) s) (stays_function w m)) as (a' & b' & c').
  repeat split; congruence.
Qed.

(** ** Functions *)
Lemma method_bf : forall w c o l s,
  (forall c k, cattr w c k <> Some o) ->
  by_function (fold_left (put_method w c) l s) o = by_function s o.
Proof.
  intros w c o l. induction l as [|[k h] l IH]; intros s N; cbn; [auto|].
  rewrite IH by auto. unfold put_method. cbn. destruct (cattr w c k) as [q|] eqn:E; cbn; [|auto].
  destruct (Nat.eqb_spec o q) as [ -> |]; [|auto]. now apply N in E.
Qed.

Lemma class_bf : forall w m o l s,
  (forall c k, cattr w c k <> Some o) ->
  by_function (fold_left (put_class w m) l s) o = by_function s o.
Proof.
  intros w m o l. induction l as [|x l IH]; intros s N; cbn; [auto|].
  rewrite IH by auto. unfold put_class. destruct (attr w m (fst x)); [|auto]. now apply method_bf.
Qed.

Lemma function_bf : forall w m n o m' (d : dict nat) s,
  only_function w m n o -> dwf d ->
  by_function (fold_left (put_function w m') d s) o =
  if m' =? m then match dget d n with Some h => Some h | None => by_function s o end
  else by_function s o.
Proof.
  intros w m n o m' d. induction d as [|[k h] d IH]; intros s O W; cbn; [now destruct (m' =? m)|].
  inversion W as [|? ? NK W']; subst. rewrite (IH _ O W'). destruct O as (O1 & O2 & O3).
  unfold put_function. cbn.
  destruct (Nat.eqb_spec m' m) as [ -> |NE].
  - destruct (Nat.eqb_spec k n) as [ -> |NK'].
    + rewrite O1. assert (G : dget d n = None) by (apply dget_None; exact NK). rewrite G. cbn.
      rewrite !Nat.eqb_refl. auto.
    + destruct (attr w m k) as [q|] eqn:E.
      * cbn. destruct (Nat.eqb_spec o q) as [ -> |]; [apply O2 in E; tauto|].
        destruct (Nat.eqb_spec n k); [congruence|]. auto.
      * destruct (Nat.eqb_spec n k); [congruence|]. auto.
  - destruct (attr w m' k) as [q|] eqn:E; [|auto]. cbn.
    destruct (Nat.eqb_spec o q) as [ -> |]; [apply O2 in E; tauto|auto].
Qed.

Lemma compile_bf : forall w m n o m' s,
  only_function w m n o ->
  by_function (compile w m' s) o =
  if m' =? m then match last_hit n (listed (functions s) m) with Some h => Some h | None => by_function s o end
  else by_function s o.
Proof.
  intros w m n o m' s O. unfold compile.
  destruct (compile_functions_get (listed (functions s) m') n) as (W & G).
  rewrite (function_bf w m n o m' _ _ O W), G.
  destruct O as (O1 & O2 & O3). rewrite !class_bf by exact O3.
  destruct (Nat.eqb_spec m' m) as [ -> |]; auto.
Qed.

(** ** Methods *)
Lemma method_bm : forall w c k c' (d : dict nat) s,
  dwf d ->
  by_method (fold_left (put_method w c') d s) c k =
  if c =? c' then match dget d k with Some h => Some h | None => by_method s c k end
  else by_method s c k.
Proof.
  intros w c k c' d. induction d as [|[k0 h] d IH]; intros s W; cbn; [now destruct (c =? c')|].
  inversion W as [|? ? NK W']; subst. rewrite (IH _ W').
  assert (E : by_method (put_method w c' s (k0, h)) c k =
              if (c =? c') && (k =? k0) then Some h else by_method s c k)
    by (unfold put_method; cbn; destruct (cattr w c' k0); reflexivity).
  rewrite E. destruct (c =? c'); cbn; [|auto].
  destruct (Nat.eqb_spec k k0) as [ -> |NE].
  - assert (G : dget d k0 = None) by (apply dget_None; exact NK). now rewrite G.
  - destruct (Nat.eqb_spec k0 k); [congruence|auto].
Qed.

Lemma class_bm : forall w m n c k m' (d : dict (dict nat)) s,
  only_class w m n c -> dwf d -> (forall x y, In (x, y) d -> dwf y) ->
  by_method (fold_left (put_class w m') d s) c k =
  if m' =? m then
    match dget d n with
    | Some y => match dget y k with Some h => Some h | None => by_method s c k end
    | None => by_method s c k
    end
  else by_method s c k.
Proof.
  intros w m n c k m' d. induction d as [|[x y] d IH]; intros s O W WW; cbn; [now destruct (m' =? m)|].
  inversion W as [|? ? NX W']; subst.
  rewrite (IH _ O W') by (intros; apply (WW x0); now right).
  assert (WY : dwf y) by (apply (WW x); now left).
  destruct O as (O1 & O2). unfold put_class. cbn [fst snd].
  destruct (Nat.eqb_spec m' m) as [ -> |NE].
  - destruct (Nat.eqb_spec x n) as [ -> |NK].
    + rewrite O1. assert (G : dget d n = None) by (apply dget_None; exact NX). rewrite G.
      rewrite !Nat.eqb_refl. rewrite (method_bm w c k c y s WY). now rewrite Nat.eqb_refl.
    + assert (E : by_method (match attr w m x with Some q => fold_left (put_method w q) y s | None => s end) c k = by_method s c k).
      { destruct (attr w m x) as [q|] eqn:E; [|auto]. rewrite (method_bm w c k q y s WY).
        destruct (Nat.eqb_spec c q) as [ -> |]; [apply O2 in E; tauto|auto]. }
      rewrite E. destruct (Nat.eqb_spec n x); [congruence|]. auto.
  - destruct (attr w m' x) as [q|] eqn:E; [|auto]. rewrite (method_bm w c k q y s WY).
    destruct (Nat.eqb_spec c q) as [ -> |]; [apply O2 in E; tauto|auto].
Qed.

Lemma function_bm : forall w m l s c k,
  by_method (fold_left (put_function w m) l s) c k = by_method s c k.
Proof.
  intros w m l. induction l as [|x l IH]; intros s c k; cbn; [auto|].
  rewrite IH. unfold put_function. now destruct (attr w m (fst x)).
Qed.

Lemma classes_inner : forall cs x y, In (x, y) (compile_classes cs) -> dwf y.
Proof.
  intros cs x y I. destruct (compile_classes_get cs x) as (W & G).
  apply (In_dget _ _ _ W) in I. rewrite I in G. destruct (last_class x cs) as [c|]; cbn in G; [|discriminate].
  injection G as ->. apply (compile_functions_get (c_funs c) 0).
Qed.

Lemma compile_bm : forall w m n c k m' s,
  only_class w m n c ->
  by_method (compile w m' s) c k =
  if m' =? m then
    match last_class n (listed (classes s) m) with
    | Some cs => match last_hit k (c_funs cs) with Some h => Some h | None => by_method s c k end
    | None => by_method s c k
    end
  else by_method s c k.
Proof.
  intros w m n c k m' s O. unfold compile. rewrite function_bm.
  destruct (compile_classes_get (listed (classes s) m') n) as (W & G).
  rewrite (class_bm w m n c k m' _ s O W (classes_inner _)), G.
  destruct (Nat.eqb_spec m' m) as [ -> |]; [|auto].
  destruct (last_class n (listed (classes s) m)) as [cs|]; cbn; [|auto].
  destruct (compile_functions_get (c_funs cs) k) as (_ & ->). auto.
Qed.

(** ** Sessions *)
Lemma stays_loaded : forall w ms s, stays s (compile_loaded w ms s).
Proof.
  intros w ms s. unfold compile_loaded. apply stays_fold. intros s0 x.
  destruct (memb x (loaded s0)); [apply stays_compile|repeat split].
Qed.

Lemma loaded_bf : forall w m n o ms s,
  only_function w m n o ->
  (last_hit n (listed (functions s) m) = None -> by_function s o = None) ->
  by_function (compile_loaded w ms s) o =
  if memb m ms && memb m (loaded s) then last_hit n (listed (functions s) m) else by_function s o.
Proof.
  intros w m n o ms. unfold compile_loaded.
  induction ms as [|a ms IH]; intros s O N; cbn; [auto|].
  destruct (memb a (loaded s)) eqn:LA.
  - destruct (stays_compile w a s) as (Q1 & Q2 & Q3).
    pose proof (compile_bf w m n o a s O) as CB.
    rewrite IH; [|exact O|].
    + rewrite Q2, Q3, CB. rewrite (Nat.eqb_sym m a).
      destruct (Nat.eqb_spec a m) as [ -> |NE]; cbn.
      * rewrite LA. cbn. rewrite andb_true_r. destruct (last_hit n _) as [h|] eqn:LH; [now destruct (memb m ms)|].
        rewrite N by auto. now destruct (memb m ms).
      * auto.
    + rewrite Q2, CB. intros E. rewrite E. rewrite (N E). now destruct (a =? m).
  - rewrite IH by auto. rewrite (Nat.eqb_sym m a). destruct (Nat.eqb_spec a m) as [ -> |NE]; cbn; [|auto].
    rewrite LA. now rewrite andb_false_r.
Qed.

Lemma loaded_bm : forall w m n c k h cs ms s,
  only_class w m n c ->
  last_class n (listed (classes s) m) = Some cs -> last_hit k (c_funs cs) = Some h ->
  by_method (compile_loaded w ms s) c k =
  if memb m ms && memb m (loaded s) then Some h else by_method s c k.
Proof.
  intros w m n c k h cs ms. unfold compile_loaded.
  induction ms as [|a ms IH]; intros s O L H; cbn; [auto|].
  destruct (memb a (loaded s)) eqn:LA.
  - destruct (stays_compile w a s) as (Q1 & Q2 & Q3).
    pose proof (compile_bm w m n c k a s O) as CB. rewrite L, H in CB.
    rewrite IH; [|exact O|now rewrite Q1|exact H].
    rewrite Q3, CB. rewrite (Nat.eqb_sym m a).
    destruct (Nat.eqb_spec a m) as [ -> |NE]; cbn; [|auto].
    rewrite LA. cbn. now destruct (memb m ms).
  - rewrite IH by auto. rewrite (Nat.eqb_sym m a). destruct (Nat.eqb_spec a m) as [ -> |NE]; cbn; [|auto].
    rewrite LA. now rewrite andb_false_r.
Qed.

Lemma loaded_bms : forall w m n c k h ms s,
  only_class w m n c ->
  by_method (compile_loaded w ms s) c k = Some h ->
  by_method s c k = Some h \/
  exists cl, last_class n (listed (classes s) m) = Some cl /\ last_hit k (c_funs cl) = Some h.
Proof.
  intros w m n c k h ms. unfold compile_loaded.
  induction ms as [|a ms IH]; intros s O E; cbn in E; [auto|].
  destruct (memb a (loaded s)); [|now apply IH].
  destruct (stays_compile w a s) as (Q1 & _).
  destruct (IH _ O E) as [E1|E1]; [|rewrite Q1 in E1; auto].
  rewrite (compile_bm w m n c k a s O) in E1. destruct (a =? m); [|auto].
  destruct (last_class n (listed (classes s) m)) as [cl|]; [|auto].
  destruct (last_hit k (c_funs cl)) as [h1|] eqn:L; [|auto].
  right. exists cl. split; [auto|congruence].
Qed.

Lemma last_hit_In : forall n fs h, last_hit n fs = Some h -> exists f, In f fs /\ hit n f = Some h.
Proof.
  intros n fs h. induction fs as [|f fs IH]; cbn; [discriminate|].
  destruct (last_hit n fs) as [h1|].
  - intros E. destruct (IH E) as (g & I & H). exists g. auto.
  - intros E. exists f. auto.
Qed.

Lemma last_class_In : forall n cs c, last_class n cs = Some c -> In c cs /\ c_name c = n.
Proof.
  intros n cs c. induction cs as [|d cs IH]; cbn; [discriminate|].
  destruct (last_class n cs) as [x|]; [intros E; destruct (IH E); auto|].
  destruct (Nat.eqb_spec (c_name d) n); [|discriminate]. intros E. injection E as <-. auto.
Qed.

(** A class of the annotations has a handler for a method. *)
Definition has (cs : list clspec) (n k h : nat) : Prop :=
  exists cl f, In cl cs /\ c_name cl = n /\ In f (c_funs cl) /\ hit k f = Some h.

Lemma has_last : forall cs n cl k h,
  last_class n cs = Some cl -> last_hit k (c_funs cl) = Some h -> has cs n k h.
Proof.
  intros cs n cl k h L H. apply last_class_In in L as (I & N). apply last_hit_In in H as (f & J & E).
  exists cl, f. auto.
Qed.

Lemma has_app : forall a b n k h, has a n k h -> has (a ++ b) n k h.
Proof. intros a b n k h (cl & f & I & R). exists cl, f. split; [apply in_or_app; auto|auto]. Qed.

Lemma last_hit_app : forall n a b,
  last_hit n (a ++ b) = match last_hit n b with Some h => Some h | None => last_hit n a end.
Proof.
  intros n a b. induction a as [|f a IH]; cbn; [now destruct (last_hit n b)|].
  rewrite IH. destruct (last_hit n b); [auto|]. auto.
Qed.

(** The state during a timely session, for one module. *)
Record fine (w : world) (m : nat) (there : bool) (fs : list fnspec) (cs : list clspec) (s : st) : Prop := {
  g_fun : listed (functions s) m = fs;
  g_cls : listed (classes s) m = cs;
  g_load : memb m (loaded s) = there;
  g_bf : forall n o, only_function w m n o -> by_function s o = if there then last_hit n fs else None;
  g_bm : forall n c k cl h, only_class w m n c -> there = true ->
         last_class n cs = Some cl -> last_hit k (c_funs cl) = Some h -> by_method s c k = Some h;
  g_bms : forall n c k h, only_class w m n c -> by_method s c k = Some h -> has cs n k h
}.

Lemma memb_sadd : forall m a l, memb m (sadd a l) = memb m l || (a =? m).
Proof.
  intros m a l. destruct (memb m (sadd a l)) eqn:E.
  - apply memb_In, In_sadd in E. symmetry. apply orb_true_iff.
    destruct E as [ -> |E]; [right; apply Nat.eqb_refl|left; now apply memb_In].
  - apply memb_nIn in E. rewrite In_sadd in E. symmetry. apply orb_false_iff.
    split; [apply memb_nIn; tauto|]. apply Nat.eqb_neq. intros ->. tauto.
Qed.

Lemma fine_step : forall w m there fs cs s e es,
  fine w m there fs cs s -> timely m there (e :: es) ->
  exists there', fine w m there' (fs ++ said_fun m [e]) (cs ++ said_class m [e]) (step w s e) /\
    timely m there' es /\ (there' = true <-> there = true \/ e = Import m).
Proof.
  intros w m there fs cs s e es [GF GC GL GB GM GS] T. destruct e as [m'|m'|l|f ds]; cbn in T.
  - exists (there || (m' =? m))%bool. unfold said_fun, said_class. cbn [flat_map files fst snd app step]. rewrite !app_nil_r.
    split; [|split; [auto|]].
    + destruct (stays_compile w m' (load m' s)) as (Q1 & Q2 & Q3). constructor.
      * now rewrite Q2.
      * now rewrite Q1.
      * rewrite Q3. cbn [load loaded]. now rewrite memb_sadd, GL.
      * intros n o O. rewrite (compile_bf w m n o m' _ O). cbn. rewrite GF, (GB n o O).
        destruct (m' =? m); [|now rewrite orb_false_r]. rewrite orb_true_r.
        destruct (last_hit n fs); [auto|now destruct there].
      * intros n c k cl h O Q L H. rewrite (compile_bm w m n c k m' _ O). cbn. rewrite GC, L, H.
        destruct (m' =? m); [auto|]. rewrite orb_false_r in Q. now apply (GM n c k cl h).
      * intros n c k h O. rewrite (compile_bm w m n c k m' _ O). cbn. rewrite GC.
        destruct (m' =? m); [|now apply GS].
        destruct (last_class n cs) as [cl|] eqn:L; [|now apply GS].
        destruct (last_hit k (c_funs cl)) as [h1|] eqn:H; [|now apply GS].
        intros E. injection E as <-. now apply (has_last cs n cl).
    + rewrite orb_true_iff, Nat.eqb_eq. split; (intros [H|H]; [auto|right; congruence]).
  - destruct T as (NE & T). exists there. unfold said_fun, said_class. cbn [flat_map files fst snd app step]. rewrite !app_nil_r.
    split; [|split; [auto|split; [auto|intros [H|H]; [auto|discriminate]]]].
    constructor; cbn [step load classes functions loaded by_method by_function]; auto.
    rewrite memb_sadd, GL. assert (Q : (m' =? m) = false) by now apply Nat.eqb_neq.
    now rewrite Q, orb_false_r.
  - destruct T as (C & T). exists there. unfold said_fun, said_class. cbn [flat_map files fst snd app step]. rewrite !app_nil_r.
    split; [|split; [auto|split; [auto|intros [H|H]; [auto|discriminate]]]].
    destruct (files_clean m l s C) as (s1 & ms & E & [A B D BM BF I]). rewrite E.
    destruct (stays_loaded w ms s1) as (Q1 & Q2 & Q3).
    set (nf := flat_map (fun p => says_fun m (fst p) (snd p)) l) in *.
    set (nc := flat_map (fun p => says_class m (fst p) (snd p)) l) in *.
    constructor.
    + rewrite Q2, A, GF. reflexivity.
    + rewrite Q1, B, GC. reflexivity.
    + rewrite Q3, D. auto.
    + intros n o O. rewrite (loaded_bf w m n o ms s1 O).
      * rewrite D, GL, A, BF, GF, (GB n o O). destruct there; [|now rewrite andb_false_r].
        rewrite andb_true_r. destruct (memb m ms) eqn:M; [auto|].
        apply memb_nIn in M. destruct I as [[-> _]|I]; [|contradiction]. now rewrite app_nil_r.
      * rewrite A, GF, BF, (GB n o O). rewrite last_hit_app. destruct (last_hit n nf); [discriminate|].
        intros ->. now destruct there.
    + intros n c k cl h O Q L H. assert (L' : last_class n (listed (classes s1) m) = Some cl) by (rewrite B, GC; exact L).
      rewrite (loaded_bm w m n c k h cl ms s1 O L' H).
      rewrite D, GL, Q, andb_true_r, BM. destruct (memb m ms) eqn:M; [auto|].
      apply memb_nIn in M. destruct I as [[_ E2]|I]; [|contradiction].
      rewrite E2, app_nil_r in L. now apply (GM n c k cl h).
    + intros n c k h O Q. destruct (loaded_bms w m n c k h ms s1 O Q) as [Q4|(cl & L & H)].
      * apply has_app. apply (GS n c k h O). now rewrite <- BM.
      * rewrite B, GC in L. now apply (has_last _ n cl).
  - destruct T as (C & SI & T). exists there. unfold said_fun, said_class. cbn [flat_map files fst snd app step]. rewrite !app_nil_r.
    split; [|split; [auto|split; [auto|intros [H|H]; [auto|discriminate]]]].
    destruct (reg_clean m f ds s C) as (s1 & ms & E & [A B D BM BF I]). rewrite E. cbn [fst].
    constructor.
    + now rewrite A, GF.
    + now rewrite B, GC.
    + now rewrite D.
    + intros n o O. rewrite BF, (GB n o O). destruct there; [|auto].
      destruct (SI eq_refl) as (-> & _). now rewrite app_nil_r.
    + intros n c k cl h O Q L H. rewrite BM. destruct (SI Q) as (_ & E2). rewrite E2, app_nil_r in L.
      now apply (GM n c k cl h).
    + intros n c k h O Q. apply has_app. apply (GS n c k h O). now rewrite <- BM.
Qed.

Lemma said_cons : forall m e es,
  said_fun m (e :: es) = said_fun m [e] ++ said_fun m es /\
  said_class m (e :: es) = said_class m [e] ++ said_class m es.
Proof.
  intros m e es. unfold said_fun, said_class. cbn [flat_map]. rewrite !flat_map_app, !app_nil_r. auto.
Qed.

Lemma fine_run : forall w m es there fs cs s,
  fine w m there fs cs s -> timely m there es ->
  exists there', fine w m there' (fs ++ said_fun m es) (cs ++ said_class m es) (fold_left (step w) es s) /\
    (there' = true <-> there = true \/ imported m es).
Proof.
  intros w m es. induction es as [|e es IH]; intros there fs cs s F T.
  - exists there. unfold said_fun, said_class. cbn [flat_map files fst snd app step]. rewrite !app_nil_r. split; [auto|].
    split; [auto|intros [H|[]]; auto].
  - destruct (fine_step w m there fs cs s e es F T) as (t1 & F1 & T1 & Q1).
    destruct (IH t1 _ _ _ F1 T1) as (t2 & F2 & Q2). exists t2.
    destruct (said_cons m e es) as (-> & ->). rewrite !app_assoc. split; [exact F2|].
    rewrite Q2, Q1. unfold imported. cbn. split.
    + intros [[H|H]|H]; auto.
    + intros [H|[H|H]]; auto.
Qed.

Lemma fine_start : forall w m, fine w m false [] [] start.
Proof. intros w m. constructor; try reflexivity; discriminate. Qed.
