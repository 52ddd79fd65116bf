(** What an expression reads when Python evaluates it. *)
From Coq Require Import List Arith Bool.
From Verif Require Import Base RvalModel.
Import ListNotations.

(** The names that targets bind. *)
Fixpoint target_names (t : expr) : list nat :=
  match t with
  | Name x => [x]
  | Lit _ es => flat_map target_names es
  | Starred _ e => target_names e
  | _ => []
  end.
Definition bound_by (ts : list expr) : list nat := flat_map target_names ts.

(** [reads v b e s]: evaluating [e] reads symbol [s], where the names in [b] are variables of the
    enclosing comprehensions. A place such as a.b or a[0] is read as the symbols that the tracer has
    for it, not as a whole object a; a container literal has a symbol of its own, if the tracer made
    one; a call adds what its result was seen to depend on. *)
Inductive reads (v : env) : list nat -> expr -> nat -> Prop :=
| r_name b x s : ~ In x b -> lookup v x = Some s -> reads v b (Name x) s
| r_op b n es e s : In e es -> reads v b e s -> reads v b (Op n es) s
| r_lit b n es s : In s (loaded v n) -> reads v b (Lit n es) s
| r_elt b n es e s : loaded v n = [] -> In e es -> reads v b e s -> reads v b (Lit n es) s
| r_fun b n f args s : reads v b f s -> reads v b (Call n f args) s
| r_res b n f args s : In s (loaded v n) -> reads v b (Call n f args) s
| r_arg b n f args e s : In e args -> reads v b e s -> reads v b (Call n f args) s
| r_attr b n e a s : In s (loaded v n) -> reads v b (Attr n e a) s
| r_attr_of b n e a s : (forall x, e <> Name x) -> reads v b e s -> reads v b (Attr n e a) s
| r_sub b n e i s : In s (loaded v n) -> reads v b (Sub n e i) s
| r_sub_of b n e i s : (forall x, e <> Name x) -> reads v b e s -> reads v b (Sub n e i) s
| r_index b n e i s : reads v b i s -> reads v b (Sub n e i) s
| r_star b n e s : reads v b e s -> reads v b (Starred n e) s
| r_lambda b n s : In s (loaded v n) -> reads v b (Lambda n) s
| r_head b n ts hd gens e s : In e hd -> reads v (bound_by ts ++ b) e s ->
    reads v b (Comp n ts hd gens) s
| r_first b n ts hd it ifs gens s : reads v b it s -> reads v b (Comp n ts hd ((it, ifs) :: gens)) s
| r_later b n ts hd g it ifs gens s : In (it, ifs) gens -> reads v (bound_by ts ++ b) it s ->
    reads v b (Comp n ts hd (g :: gens)) s
| r_if b n ts hd it ifs gens e s : In (it, ifs) gens -> In e ifs -> reads v (bound_by ts ++ b) e s ->
    reads v b (Comp n ts hd gens) s.

(** The variables among these: those whose values the expression takes as a whole, other than by
    a star or as an index. *)
Inductive takes (v : env) : list nat -> expr -> nat -> Prop :=
| t_name b x s : ~ In x b -> lookup v x = Some s -> takes v b (Name x) s
| t_op b n es e s : In e es -> takes v b e s -> takes v b (Op n es) s
| t_elt b n es e s : loaded v n = [] -> In e es -> takes v b e s -> takes v b (Lit n es) s
| t_fun b n f args s : takes v b f s -> takes v b (Call n f args) s
| t_arg b n f args e s : In e args -> takes v b e s -> takes v b (Call n f args) s
| t_attr_of b n e a s : (forall x, e <> Name x) -> takes v b e s -> takes v b (Attr n e a) s
| t_sub_of b n e i s : (forall x, e <> Name x) -> takes v b e s -> takes v b (Sub n e i) s
| t_head b n ts hd gens e s : In e hd -> takes v (bound_by ts ++ b) e s ->
    takes v b (Comp n ts hd gens) s
| t_first b n ts hd it ifs gens s : takes v b it s -> takes v b (Comp n ts hd ((it, ifs) :: gens)) s
| t_later b n ts hd g it ifs gens s : In (it, ifs) gens -> takes v (bound_by ts ++ b) it s ->
    takes v b (Comp n ts hd (g :: gens)) s
| t_if b n ts hd it ifs gens e s : In (it, ifs) gens -> In e ifs -> takes v (bound_by ts ++ b) e s ->
    takes v b (Comp n ts hd gens) s.

(** Different names have different symbols. *)
Definition distinct_names (v : env) : Prop :=
  forall x y s, lookup v x = Some s -> lookup v y = Some s -> x = y.

(** [s] is the symbol of a variable outside whose name is taken in the comprehension. *)
Definition hidden (v : env) (b : list nat) (s : nat) : Prop :=
  exists x, In x b /\ lookup v x = Some s.

(** a.b[0].c: a name followed by attributes and constant subscripts, read as one place. *)
Inductive place (v : env) : expr -> Prop :=
| p_name x : place v (Name x)
| p_attr n e a : loaded v n = [] -> place v e -> place v (Attr n e a)
| p_sub n e m k : loaded v n = [] -> place v e -> place v (Sub n e (Const m k)).

(** Indices without names of their own. *)
Inductive plain_index (v : env) : expr -> Prop :=
| i_const n k : plain_index v (Const n k)
| i_op n es : (forall e, In e es -> plain_index v e) -> plain_index v (Op n es)
| i_sub n e i : loaded v n <> [] -> place v e -> plain_index v i -> plain_index v (Sub n e i).

(** Targets of comprehensions: names and tuples of them. *)
Inductive target (v : env) : expr -> Prop :=
| g_name x : target v (Name x)
| g_tuple n es : loaded v n = [] -> (forall e, In e es -> target v e) -> target v (Lit n es).

(** The expressions that are resolved rightly: what is called is a name or a place;
    attributes are taken of places and of results of calls; so are items, at plain indices; stars
    stand before names; and the variables of a comprehension do not share their names with
    variables read by its first iterable. *)
Inductive fine (v : env) : list nat -> expr -> Prop :=
| f_name b x : fine v b (Name x)
| f_const b n k : fine v b (Const n k)
| f_op b n es : (forall e, In e es -> fine v b e) -> fine v b (Op n es)
| f_lit b n es : (forall s, In s (loaded v n) -> ~ hidden v b s) ->
    (loaded v n = [] -> forall e, In e es -> fine v b e) -> fine v b (Lit n es)
| f_call b n x args : (forall s, In s (loaded v n) -> ~ hidden v b s) ->
    (forall e, In e args -> fine v b e) -> fine v b (Call n (Name x) args)
| f_method b n f args : (forall s, In s (loaded v n) -> ~ hidden v b s) ->
    is_chain f = true -> fine v b f -> (forall e, In e args -> fine v b e) -> fine v b (Call n f args)
| f_attr b n e a : loaded v n <> [] -> (forall s, In s (loaded v n) -> ~ hidden v b s) ->
    place v e -> fine v b (Attr n e a)
| f_attr_call b n m f args a : loaded v n <> [] -> (forall s, In s (loaded v n) -> ~ hidden v b s) ->
    fine v b (Call m f args) -> fine v b (Attr n (Call m f args) a)
| f_sub b n e i : loaded v n <> [] -> (forall s, In s (loaded v n) -> ~ hidden v b s) ->
    place v e -> plain_index v i -> fine v b (Sub n e i)
| f_sub_call b n m f args i : loaded v n <> [] -> (forall s, In s (loaded v n) -> ~ hidden v b s) ->
    fine v b (Call m f args) -> plain_index v i -> fine v b (Sub n (Call m f args) i)
| f_star b n x : ~ In x b -> fine v b (Starred n (Name x))
| f_lambda b n : fine v b (Lambda n)
| f_comp b n ts hd it ifs gens :
    (forall t, In t ts -> target v t) ->
    (forall e, In e hd -> fine v (bound_by ts ++ b) e) ->
    fine v (bound_by ts ++ b) it ->
    (forall s, reads v b it s -> ~ hidden v (bound_by ts) s) ->
    (forall e, In e ifs -> fine v (bound_by ts ++ b) e) ->
    (forall g, In g gens -> fine v (bound_by ts ++ b) (fst g)) ->
    (forall g e, In g gens -> In e (snd g) -> fine v (bound_by ts ++ b) e) ->
    fine v b (Comp n ts hd ((it, ifs) :: gens)).

(** No subscripts, stars, lambdas and comprehensions. *)
Inductive plain : expr -> Prop :=
| pl_name x : plain (Name x)
| pl_const n k : plain (Const n k)
| pl_op n es : (forall e, In e es -> plain e) -> plain (Op n es)
| pl_lit n es : (forall e, In e es -> plain e) -> plain (Lit n es)
| pl_call n f args : plain f -> (forall e, In e args -> plain e) -> plain (Call n f args)
| pl_attr n e a : plain e -> plain (Attr n e a).
