(** Matching always finishes: final statement (C27). *)
From Coq Require Import String.
From Verif Require Import Base MTokenizer MLit MFastVal MMath SEvents SFormula SMerge MBinTree MExpr MTransform SProper MMatcher PMerge PCompile PTerm PTermHeap SExamples.
From Coq Require Import List NArith ZArith Arith Lia Bool.
Import ListNotations.
Open Scope nat_scope.

(** ** C27 *)

(** For every filter list that compiles and in which conditions stand where
    conditions belong, every matcher state (fresh, reset, or left over from earlier
    matches that may have failed) and every byte string, JSON or not: some number of
    steps is enough for Match to come to an end, with an answer, an error or a crash,
    and the outcome is the same from there on. *)
Theorem C27_match_terminates : forall o es D doc s, transform o es = Ok D -> forallb proper es = true ->
  exists F r, r <> OutOfFuel /\ forall fuel, F <= fuel -> match_ fuel o D doc s = r.
Proof.
  intros o es D doc s H HP. destruct (transform_heapOk o es D HP H) as (inner & HO).
  assert (treeOk (d_tree D)) as HT.
  { destruct (transform_spec o es D H) as [[_ ->]|(g & gs & t & ids & _ & _ & _ & _ & ->)]; cbn [d_tree].
    - intros i d E. destruct i; discriminate.
    - apply lay0_treeOk. }
  destruct (match_halts o D doc s inner HT HO) as (r & F & HF & Hr & _). exists F, r. auto.
Qed.

(** Nested loops over data that breaks off in the middle of an element, and over
    data that is not JSON at all. *)
Definition ex_nested : list expr :=
  [XLoop LAny 1 (fld 0 ["a"%string]) (XLoop LEvery 2 (fld 1 ["b"%string]) (XCmp CGt (fld 2 []) (ci 3)))].
Example C27_terminates_case : forall o,
  (exists D, transform o ex_nested = Ok D) /\ forallb proper ex_nested = true
  /\ run o ex_nested "{""a"":[{""b"":[1,2]},{""b"":[4,5]}]}" = Ok (Some true)
  /\ run o ex_nested "{""a"":[{""b"":[1,2]},{""b"":[4,x" = Ok None
  /\ run o ex_nested "{""a"":[{""b"":]]}" = Panic.
Proof.
  intro o. split.
  { let x := eval vm_compute in (transform o ex_nested) in match x with Ok ?D => exists D end. vm_compute. reflexivity. }
  split; [reflexivity|]. split; [|split]; vm_compute; reflexivity.
Qed.

Print Assumptions C27_match_terminates.
