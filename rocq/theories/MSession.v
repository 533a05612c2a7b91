(** Driving the predicate tree the way the matcher does: report leaves that are
    still open, run loops under a stall index. *)
From Verif Require Import Base MBinTree SFormula SEvents.
From Coq Require Import List Arith Lia Bool.
Import ListNotations.

(** fastMatcher.go:227-309 (matchOp, its tree part): skip when already resolved,
    otherwise mark. *)
Definition tryMark (T : list node) (stall : nat) (d : sdata) (k : nat) (b : bool) : outcome sdata :=
  do r <- isResolved d k;
  if r then Ok d else mark T stall d k b.

(** fastMatcher.go:411-417 - initial loop state. *)
Definition loopInit (m : lmode) : bool :=
  match m with LAny => false | LEvery => true | LAnyEvery => false end.

(** fastMatcher.go:459-497 - what an iteration's outcome does: new loop state, and
    whether the loop is left. *)
Definition loopStep (m : lmode) (state matched : bool) : bool * bool :=
  match m with
  | LAny => if matched then (true, true) else (state, false)
  | LEvery => if matched then (state, false) else (false, true)
  | LAnyEvery => if matched then (true, false) else (false, true)
  end.

(** fastMatcher.go:388-520 (matchLoop, its tree part).  Iterations are given as
    functions acting on the state under the loop's stall index. *)
Fixpoint runIters (T : list node) (k : nat) (m : lmode)
         (its : list (sdata -> outcome sdata)) (state : bool) (d : sdata) : outcome (bool * sdata) :=
  match its with
  | [] => Ok (state, d)
  | it :: r =>
      do d1 <- resetNode T d k;
      do d2 <- it d1;
      do matched <- isTrue d2 k;
      let '(state', leave) := loopStep m state matched in
      if leave then Ok (state', d2) else runIters T k m r state' d2
  end.

Definition runLoop (T : list node) (stall : nat) (d : sdata) (k : nat) (m : lmode)
           (its : list (sdata -> outcome sdata)) : outcome sdata :=
  do r <- isResolved d k;
  if r then Ok d
  else
    do (res, d1) <- runIters T k m its (loopInit m) d;
    do d2 <- resetNode T d1 k;
    mark T stall d2 k res.

Fixpoint runEv (T : list node) (stall : nat) (e : ev) (d : sdata) : outcome sdata :=
  match e with
  | ERep k b => tryMark T stall d k b
  | ELoop k _ m its =>
      runLoop T stall d k m
        (map (fun it => (fix go (it : list ev) (d : sdata) : outcome sdata :=
                           match it with
                           | [] => Ok d
                           | e :: r => do d1 <- runEv T k e d; go r d1
                           end) it) its)
  end.

Definition runEvs (T : list node) (stall : nat) :=
  fix go (l : list ev) (d : sdata) : outcome sdata :=
    match l with
    | [] => Ok d
    | e :: r => do d1 <- runEv T stall e d; go r d1
    end.

Lemma runEv_loop : forall T stall k a m its d,
  runEv T stall (ELoop k a m its) d = runLoop T stall d k m (map (fun it => runEvs T k it) its).
Proof. reflexivity. Qed.
