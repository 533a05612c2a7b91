(** Documents on which matching does not do what one would expect: counterexamples
    to C19, C21, C24, C26, C28, C29, C30 and C31 taken without restriction.  The
    restricted statements that do hold are proved elsewhere. *)
From Coq Require Import String.
From Verif Require Import Base MTokenizer MLit MFastVal MMath SEvents MBinTree MSession MExpr MTransform MMatcher SExamples.
From Coq Require Import List NArith ZArith Arith Lia Bool.
Import ListNotations.
Open Scope nat_scope.
Open Scope string_scope.

Definition fa := fld 0 ["a"].
Definition fb := fld 0 ["b"].

(** ** C19 *)

(** A bare literal document: both fields are absent, yet [a = b] holds (a slot
    never filled reads the start of the document). *)
Theorem C19_literal_document_refuted : forall o, run o [XCmp CEq fa fb] "5" = Ok (Some true).
Proof. intro o. vm_compute. reflexivity. Qed.
(** A function of an absent field: [add(a, b) < 5] with [b] absent holds. *)
Theorem C19_function_of_absent_refuted : forall o,
  run o [XCmp CLt (XFunc (s2b "mathAdd") [fa; fb]) (ci 5)] "{""a"":1}" = Ok (Some true).
Proof. intro o. vm_compute. reflexivity. Qed.
(** Repeated member names: a comparison with a constant sees the first, a comparison
    of two fields the last. *)
Theorem C19_repeated_names_refuted : forall o,
  run o [XCmp CEq fa (ci 1)] "{""a"":1,""a"":2,""b"":2}" = Ok (Some true) /\
  run o [XCmp CEq fa fb] "{""a"":1,""a"":2,""b"":2}" = Ok (Some true).
Proof. intro o. split; vm_compute; reflexivity. Qed.

(** A field and two below it in one comparison: never true. *)
Theorem C19_nested_operands_refuted : forall o,
  let e := XCmp CLt (XFunc (s2b "mathAdd") [fld 0 ["a"; "b"]; fld 0 ["a"; "c"]]) fa in
  transform o [e] <> Panic /\
  run o [e] "{""a"":{""b"":1,""c"":2}}" = Ok (Some false) /\
  run o [XCmp CLt (XFunc (s2b "mathAdd") [fld 0 ["x"; "b"]; fld 0 ["x"; "c"]]) fa] "{""x"":{""b"":1,""c"":2},""a"":{""b"":1,""c"":2}}" = Ok (Some true).
Proof. intro o. repeat split; vm_compute; try discriminate; reflexivity. Qed.

(** ** C21 *)

(** [a[1] = 2] alone, and compiled together with a loop over [a]: its own answer
    changes. *)
Theorem C21_loop_hides_indexes_refuted : forall o,
  let e := XCmp CEq (fld 0 ["a"; "[1]"]) (ci 2) in
  let l := XLoop LAny 1 fa (XCmp CEq (fld 1 []) (ci 7)) in
  runEach o [e] "{""a"":[1,2]}" = Ok [Ok true] /\
  runEach o [e; l] "{""a"":[1,2]}" = Ok [Ok false; Ok false].
Proof. intro o. split; vm_compute; reflexivity. Qed.
(** The same with [a exists] on an empty array. *)
Theorem C21_loop_reveals_empty_refuted : forall o,
  let l := XLoop LAny 1 fa (XExists (fld 1 [])) in
  runEach o [XExists fa] "{""a"":[]}" = Ok [Ok false] /\
  runEach o [XExists fa; l] "{""a"":[]}" = Ok [Ok true; Ok false].
Proof. intro o. split; vm_compute; reflexivity. Qed.
(** Asking for a constant expression crashes. *)
Theorem C21_constant_expression_refuted : forall o,
  runEach o [XFalse; XExists fa] "{""a"":1}" = Ok [Panic; Ok true].
Proof. intro o. vm_compute. reflexivity. Qed.

(** TRUE beside another expression does not make the whole match. *)
Theorem C21_true_in_list_refuted : forall o,
  run o [XTrue; XExists fa] "{""b"":1}" = Ok (Some false) /\ runEach o [XTrue; XExists fa] "{""b"":1}" = Ok [Panic; Ok false].
Proof. intro o. split; vm_compute; reflexivity. Qed.

(** ** C24 *)

(** Adding an unreferenced member turns [a exists or 1 = 1] true. *)
Theorem C24_empty_object_refuted : forall o,
  let e := XOr [XExists fa; XCmp CEq (ci 1) (ci 1)] in
  run o [e] "{}" = Ok (Some false) /\ run o [e] "{""b"":1}" = Ok (Some true).
Proof. intro o. split; vm_compute; reflexivity. Qed.

(** ** C26 *)

(** Malformed documents that crash the matcher. *)
Theorem C26_malformed_crash_refuted : forall o,
  let e := XExists fb in
  Forall (fun doc => run o [e] doc = Panic)
    ["{""a"":["; "{"; "{""a"":1 2"; "{""a"" 1"; "{1"; "{""a"":}"; "]"; " "].
Proof. intro o. repeat constructor. Qed.
(** Nothing but constants compiled: every document crashes. *)
Theorem C26_constant_filter_refuted : forall o, run o [XTrue] "{}" = Panic.
Proof. intro o. vm_compute. reflexivity. Qed.

(** ** C28 *)

(** [not (v.x = 1)] on an element without [x]: unmatched inside a loop, although
    the same filter on that element as a document matches. *)
Theorem C28_negation_in_loop_refuted : forall o,
  run o [XLoop LAny 1 fa (XNot (XCmp CEq (fld 1 ["x"]) (ci 1)))] "{""a"":[{""y"":1}]}" = Ok (Some false) /\
  run o [XNot (XCmp CEq (fld 0 ["x"]) (ci 1))] "{""y"":1}" = Ok (Some true).
Proof. intro o. split; vm_compute; reflexivity. Qed.
(** A loop with such a body over an absent array is true. *)
Theorem C28_loop_over_absent_refuted : forall o,
  run o [XLoop LAny 1 fa (XNot (XCmp CEq (fld 1 ["x"]) (ci 1)))] "{""b"":1}" = Ok (Some true).
Proof. intro o. vm_compute. reflexivity. Qed.

(** ** C29 *)

(** [any v in a: v.x = v.y]: the second element has no [x]; the first one's is used. *)
Theorem C29_stale_value_refuted : forall o,
  let e := XLoop LAny 1 fa (XCmp CEq (fld 1 ["x"]) (fld 1 ["y"])) in
  run o [e] "{""a"":[{""x"":1,""y"":2},{""y"":1}]}" = Ok (Some true) /\
  run o [e] "{""a"":[{""x"":1,""y"":2}]}" = Ok (Some false) /\
  run o [e] "{""a"":[{""y"":1}]}" = Ok (Some false).
Proof. intro o. repeat split; vm_compute; reflexivity. Qed.

(** ** C30 *)

(** TRUE inside a disjunction counts as false. *)
Theorem C30_nested_true_refuted : forall o,
  run o [XOr [XTrue; XExists fa]] "{""b"":1}" = Ok (Some false) /\
  run o [XNot XFalse] "{""b"":1}" = Ok (Some true) /\
  run o [XNot XTrue] "{""b"":1}" = Ok (Some true).
Proof. intro o. repeat split; vm_compute; reflexivity. Qed.

(** ** C31 *)

(** An empty array, or an empty object when something below it is referenced, does
    not exist. *)
Theorem C31_empty_array_refuted : forall o,
  run o [XExists fa] "{""a"":[]}" = Ok (Some false) /\ run o [XExists fa] "{""a"":[0]}" = Ok (Some true) /\
  run o [XOr [XExists fa; XExists (fld 0 ["a"; "x"])]] "{""a"":{}}" = Ok (Some false).
Proof. intro o. repeat split; vm_compute; reflexivity. Qed.

Print Assumptions C19_literal_document_refuted.
Print Assumptions C21_loop_hides_indexes_refuted.
Print Assumptions C26_malformed_crash_refuted.
Print Assumptions C29_stale_value_refuted.
