(** C107. *)
From Coq Require Import List NArith Bool String.
From Verif Require Import CopyModel CopySpec CopyProofs.
Import ListNotations.
Local Open Scope N_scope.

(** [x = 100% 7], a back slash, a tab, an e with an accent and a character of
    the basic plane; and [y = x < 3]. *)
Definition w_cells : list cell :=
  [mkCell 3 (str "x = 100% 7 \ " ++ [9; 233; 8364; 10] ++ str "print(x)") (Some 12);
   mkCell 12 (str "y = x < 3") None].

(** The texts that a click on the two links puts into the clipboard are the code
    of the slice and its text with or without headers, for all slices of simple
    texts and every formatting with simple results. *)
Theorem C107_copy_partial : forall i headers black cs code text,
  is_code black cs code -> is_text headers cs text ->
  (forall c, In c cs -> simple (content c)) -> (black = None \/ simple code) ->
  copied 0 (widget i headers black cs) = Some code /\
  copied 1 (widget i headers black cs) = Some text.
Proof.
  intros i headers black cs code text C T H B.
  apply code_of_unique in C. apply slice_text_unique in T. subst code text.
  assert (F : fine (code_of black cs)).
  { apply fine_code; auto. intros f E. destruct B as [B|B]; [congruence|exact B]. }
  split; [now apply copied_code|]. apply copied_cells; [now apply fine_quotes|now apply fine_slice].
Qed.
Print Assumptions C107_copy_partial.

(** The code alone, whatever the rest of the page is. *)
Theorem C107_code_partial : forall i headers black cs code,
  is_code black cs code -> simple code -> copied 0 (widget i headers black cs) = Some code.
Proof.
  intros i headers black cs code C S. apply code_of_unique in C. subst code. now apply copied_code, simple_fine.
Qed.
Print Assumptions C107_code_partial.

(** There are such texts, for every slice. *)
Theorem C107_texts : forall headers black cs,
  (exists code, is_code black cs code) /\ (exists text, is_text headers cs text).
Proof. intros. split; eexists; [apply code_is|apply text_is]. Qed.
Print Assumptions C107_texts.

Example C107_copy_example :
  (forall c, In c w_cells -> simple (content c)) /\
  copied 0 (widget Lab true None w_cells) =
    Some (str "x = 100% 7 \ " ++ [9; 233; 8364; 10] ++ str "print(x)" ++ [10] ++ str "y = x < 3") /\
  copied 1 (widget Lab true None w_cells) =
    Some (str "# Cell 3" ++ [10] ++ str "x = 100% 7 \ " ++ [9; 233; 8364; 10] ++ str "print(x)" ++ [10; 10] ++
          str "# Cell 12" ++ [10] ++ str "y = x < 3").
Proof.
  split; [|split; vm_compute; reflexivity].
  intros c [ <- |[ <- |[]]]; (split; [apply chars_ok; vm_compute; reflexivity|apply no_percent_ok; reflexivity]).
Qed.

(** What is visible is the text of the slice with the numbers of the cells, for
    all slices without tags and without double quotes. *)
Theorem C107_shown_partial : forall i headers black cs code text,
  is_code black cs code -> is_text headers cs text -> ~ In 34 code -> ~ In 34 text ->
  (forall c, In c cs -> tagless (content c)) ->
  visible InText (widget i headers black cs) =
  [10; 10; 10] ++ str "Copy code | Copy cells" ++ [10; 10] ++ numbered cs ++ [10; 10; 10].
Proof.
  intros i headers black cs code text C T A B H.
  apply code_of_unique in C. apply slice_text_unique in T. subst code text. now apply visible_widget.
Qed.
Print Assumptions C107_shown_partial.

Example C107_shown_example :
  ~ In 34 (contents w_cells) /\ ~ In 34 (slice_text true w_cells) /\
  (forall c, In c w_cells -> tagless (content c)) /\
  visible InText (linked Lab w_cells) =
    str "# Cell 3" ++ [10] ++ str "x = 100% 7 \ " ++ [9; 233; 8364; 10] ++ str "print(x)" ++ [10; 10] ++
    str "# Cell 12" ++ [10] ++ str "y = x < 3".
Proof.
  split; [|split; [|split; [|vm_compute; reflexivity]]].
  1, 2: vm_compute; intros H; repeat (destruct H as [H|H]; [discriminate|]); exact H.
  intros c [ <- |[ <- |[]]]; (split; [|apply no_tag_ok; reflexivity]);
    vm_compute; intros H; repeat (destruct H as [H|H]; [discriminate|]); exact H.
Qed.

(** A string literal in the code: nothing is copied, with both kinds of quotes. *)
Theorem C107_quotes_refuted :
  copied 0 (widget Jupyter true None [mkCell 1 (str "x = 'a'") None]) = None /\
  copied 0 (widget Jupyter true None [mkCell 1 (str "x = " ++ [34] ++ str "a" ++ [34]) None]) = None.
Proof. split; vm_compute; reflexivity. Qed.
Print Assumptions C107_quotes_refuted.

(** [y = x%25] is copied as [y = x%]. *)
Theorem C107_percent_refuted :
  copied 0 (widget Jupyter true None [mkCell 1 (str "y = x%25") None]) = Some (str "y = x%").
Proof. vm_compute. reflexivity. Qed.
Print Assumptions C107_percent_refuted.

(** A character outside of the basic plane is copied as its number. *)
Theorem C107_plane_refuted :
  copied 0 (widget Jupyter true None [mkCell 1 [128512] None]) = Some (str "U0001f600").
Proof. vm_compute. reflexivity. Qed.
Print Assumptions C107_plane_refuted.

(** [y = x <z or z> 2] is shown as [y = x  2]. *)
Theorem C107_tags_refuted :
  visible InText (linked Other [mkCell 1 (str "y = x <z or z> 2") None]) =
  str "# Cell 1" ++ [10] ++ str "y = x  2".
Proof. vm_compute. reflexivity. Qed.
Print Assumptions C107_tags_refuted.
