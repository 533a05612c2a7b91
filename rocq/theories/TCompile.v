(** Compilation: final statements (C16, C17). *)
From Coq Require Import String.
From Verif Require Import Base MFastVal SEvents SFormula SMerge MBinTree MExpr MTransform SCompile PBinTree PMerge PCompile SExamples.
From Coq Require Import List NArith ZArith Arith Lia Bool.
Import ListNotations.
Open Scope nat_scope.

(** ** C16 *)

(** Constant expressions get a marker; the others, in order, the places where
    their structures start. *)
Inductive advertised : list expr -> list (nat * form) -> list Z -> Prop :=
| adv_nil : advertised [] [] []
| adv_true : forall es ps zs, advertised es ps zs -> advertised (XTrue :: es) ps ((-1)%Z :: zs)
| adv_false : forall es ps zs, advertised es ps zs -> advertised (XFalse :: es) ps ((-2)%Z :: zs)
| adv_place : forall e es i ps zs, e <> XTrue -> e <> XFalse -> advertised es ps zs ->
    advertised (e :: es) ((i, structure e) :: ps) (Z.of_nat i :: zs).

Lemma mbuckets_forms : forall es i e, map snd (mbuckets i e es) = e :: es.
Proof. induction es; intros; cbn; auto. now rewrite IHes. Qed.

Lemma advertised_buckets : forall es ps, map snd ps = map structure (genExprs es) ->
  advertised es ps (exprBuckets es (map fst ps)).
Proof.
  induction es as [|e es IH]; intros ps H.
  - destruct ps; [constructor|discriminate].
  - destruct e; try (cbn; constructor; now apply IH);
    destruct ps as [|[i f] ps]; try discriminate; cbn in H; inversion H; subst; cbn; constructor; try discriminate; now apply IH.
Qed.

(** Every list of expressions that compiles, with at least one that is not a
    constant: the tree passes validation; it is, node by node, the pre-order
    layout of the expressions' structures joined by never-early-out disjunctions;
    each advertised bucket is where that expression's own structure is laid out. *)
Theorem C16_tree_of_the_expressions : forall o es D,
  transform o es = Ok D -> genExprs es <> [] ->
  exists g gs, genExprs es = g :: gs /\
    validate (d_tree D) = Ok tt /\
    d_tree D = lay 0 0 (merged (structure g) (map structure gs)) /\
    advertised es (mbuckets 0 (structure g) (map structure gs)) (d_buckets D) /\
    (forall i f, In (i, f) (mbuckets 0 (structure g) (map structure gs)) ->
       exists p, laid (d_tree D) p i f) .
Proof.
  intros o es D H Hn. destruct (transform_spec _ _ _ H) as [[E _]|(g & gs & t & ids & Eg & Em & HT & Hids & HD)]; [contradiction|].
  exists g, gs. split; [exact Eg|]. subst D. cbn [d_tree d_buckets].
  destruct (transform_validates o es g gs t ids Eg Em) as (_ & V & _).
  rewrite HT in V. split; [exact V|]. split; [reflexivity|]. split.
  - rewrite Hids. apply advertised_buckets. rewrite mbuckets_forms, Eg. reflexivity.
  - intros i f Hi. unfold structures.
    assert (forall es e T p0 i0, laid T p0 i0 (merged e es) -> In (i, f) (mbuckets i0 e es) -> exists p, laid T p i f) as X.
    { clear. induction es as [|e2 es IH]; intros e T p0 i0 HL HI; cbn in *.
      - destruct HI as [HI|[]]. inversion HI; subst. eauto.
      - destruct HL as (_ & HL1 & HL2). destruct HI as [HI|HI].
        + inversion HI; subst. eauto.
        + eapply IH; eauto. }
    eapply X; [|exact Hi]. apply lay_laid.
Qed.

(** The number of buckets is the total size of the structures plus one join per
    further expression. *)
Theorem C16_bucket_count : forall o es D g gs, transform o es = Ok D -> genExprs es = g :: gs ->
  length (d_tree D) = fsize (structure g) + fold_right (fun e n => S (fsize (structure e)) + n) 0 gs.
Proof.
  intros o es D g gs H Eg. destruct (transform_spec _ _ _ H) as [[E _]|(g' & gs' & t & ids & Eg' & _ & _ & _ & HD)]; [congruence|].
  rewrite Eg in Eg'. inversion Eg'; subst. cbn [d_tree]. rewrite lay_length. unfold structures.
  clear. generalize (structure g'). induction gs' as [|e es IH]; intro f; cbn [map merged fold_right fsize].
  - lia.
  - rewrite IH. lia.
Qed.

(** Nothing but constants: no tree at all. *)
Theorem C16_constants_only : forall o es D, transform o es = Ok D -> genExprs es = [] ->
  d_heap D = None /\ d_tree D = [] /\ advertised es [] (d_buckets D).
Proof.
  intros o es D H Hn. unfold transform in H. rewrite Hn in H. inversion H; subst. cbn. repeat split; auto.
  change (@nil nat) with (map fst (@nil (nat * form))). apply advertised_buckets. now rewrite Hn.
Qed.

Ltac compiled t := let x := eval vm_compute in t in match x with Ok ?D => exists D end.

(** [any v in a: v != 1 or v exists], TRUE, [not (b < c and b = 2 and c = 3)]. *)
Definition ex16 : list expr :=
  [XLoop LAny 1 (fld 0 ["a"]%string) (XOr [XCmp CNe (fld 1 []) (ci 1); XExists (fld 1 [])]);
   XTrue;
   XNot (XAnd [XCmp CLt (fld 0 ["b"]%string) (fld 0 ["c"]%string); XCmp CEq (fld 0 ["b"]%string) (ci 2);
               XCmp CEq (fld 0 ["c"]%string) (ci 3)])].
Example C16_example : forall o, exists D, transform o ex16 = Ok D /\ genExprs ex16 <> [] /\
  d_buckets D = [1; -1; 6]%Z /\
  map n_type (d_tree D) = [NNeor; NLoop; NOr; NNot; NLeaf; NLeaf; NNot; NAnd; NLeaf; NAnd; NLeaf; NLeaf].
Proof. intro o. compiled (transform o ex16). split; [vm_compute; reflexivity|]. split; [discriminate|]. split; reflexivity. Qed.
Example C16_constants_example : forall o, exists D, transform o [XFalse; XTrue] = Ok D /\ d_buckets D = [-2; -1]%Z.
Proof. intro o. eexists. split; reflexivity. Qed.

(** ** C17: well-scoped expressions that crash the compiler *)

(** Every and/or is non-empty, every field starts at the document or at a loop
    variable bound around it; operands are fields, constants or functions. *)
Inductive operand_ok (vs : list nat) : expr -> Prop :=
| ok_field : forall r p, r = 0 \/ In r vs -> operand_ok vs (XField r p)
| ok_value : forall g, operand_ok vs (XValue g)
| ok_func : forall n l, Forall (operand_ok vs) l -> operand_ok vs (XFunc n l).
Inductive well_scoped : list nat -> expr -> Prop :=
| ws_true : forall vs, well_scoped vs XTrue
| ws_false : forall vs, well_scoped vs XFalse
| ws_not : forall vs a, well_scoped vs a -> well_scoped vs (XNot a)
| ws_and : forall vs l, l <> [] -> Forall (well_scoped vs) l -> well_scoped vs (XAnd l)
| ws_or : forall vs l, l <> [] -> Forall (well_scoped vs) l -> well_scoped vs (XOr l)
| ws_loop : forall vs m v r p s, v <> 0 -> r = 0 \/ In r vs -> well_scoped (v :: vs) s ->
    well_scoped vs (XLoop m v (XField r p) s)
| ws_exists : forall vs a, operand_ok vs a -> well_scoped vs (XExists a)
| ws_notexists : forall vs a, operand_ok vs a -> well_scoped vs (XNotExists a)
| ws_cmp : forall vs k l r, operand_ok vs l -> operand_ok vs r -> well_scoped vs (XCmp k l r).

(** A field and one nested below it in one comparison: [a = a.b]. *)
Theorem C17_prefix_path_refuted : exists e, well_scoped [] e /\ forall o, transform o [e] = Panic.
Proof.
  exists (XCmp CEq (fld 0 ["a"]%string) (fld 0 ["a"; "b"]%string)). split; [|reflexivity]. repeat constructor.
Qed.
(** Inside two loops, a comparison on the outer variable. *)
Theorem C17_outer_variable_refuted : exists e, well_scoped [] e /\ forall o, transform o [e] = Panic.
Proof.
  exists (XLoop LAny 1 (fld 0 ["a"]%string) (XLoop LAny 2 (fld 1 ["b"]%string) (XCmp CEq (fld 1 ["c"]%string) (ci 1)))).
  split; [|reflexivity]. repeat constructor; try discriminate; cbn; tauto.
Qed.
(** NOT EXISTS inside a loop. *)
Theorem C17_not_exists_in_loop_refuted : exists e, well_scoped [] e /\ forall o, transform o [e] = Panic.
Proof.
  exists (XLoop LAny 1 (fld 0 ["a"]%string) (XNotExists (fld 1 ["b"]%string))).
  split; [|reflexivity]. repeat constructor; try discriminate; cbn; tauto.
Qed.
(** A constant inside a loop. *)
Theorem C17_constant_in_loop_refuted : exists e, well_scoped [] e /\ forall o, transform o [e] = Panic.
Proof.
  exists (XLoop LEvery 1 (fld 0 ["a"]%string) XTrue).
  split; [|reflexivity]. repeat constructor; try discriminate; cbn; tauto.
Qed.
(** A loop over a document field, inside another loop. *)
Theorem C17_inner_loop_over_document_refuted : exists e, well_scoped [] e /\ forall o, transform o [e] = Panic.
Proof.
  exists (XLoop LAny 1 (fld 0 ["a"]%string) (XLoop LAny 2 (fld 0 ["b"]%string) (XExists (fld 2 [])))).
  split; [|reflexivity]. repeat constructor; try discriminate; cbn; tauto.
Qed.
(** Outside the well-scoped expressions: an empty connective. *)
Theorem C17_empty_connective_crashes : forall o, transform o [XAnd []] = Panic /\ transform o [XOr []] = Panic.
Proof. split; reflexivity. Qed.

Print Assumptions C16_tree_of_the_expressions.
Print Assumptions C16_bucket_count.
Print Assumptions C16_constants_only.
Print Assumptions C17_outer_variable_refuted.
