(** Specification: the values of a document, by path. *)
From Verif Require Import Base MTokenizer SJson MLit MFastVal MExpr MMatcher MTree.
From Coq Require Import List NArith ZArith Arith Lia Bool.
Import ListNotations.
Open Scope nat_scope.

(** The value under a key. *)
Fixpoint findItem (k : bytes) (l : list (outcome bytes * cst)) : option cst :=
  match l with
  | [] => None
  | (Ok k', w) :: r => if bytes_eqb k k' then Some w else findItem k r
  | _ :: r => findItem k r
  end.
(** The value at a path. *)
Fixpoint at_ (p : list bytes) (v : cst) : option cst :=
  match p with
  | [] => Some v
  | k :: r => match findItem k (items v) with Some w => at_ r w | None => None end
  end.

(** All keys readable and distinct, all literals readable, hereditarily. *)
Inductive docOk (o : oracles) : cst -> Prop :=
| doc_ok : forall v, (exists x, valOf o v = Ok x) ->
    (exists ks, map fst (items v) = map Ok ks /\ NoDup ks) ->
    (forall w, In w (map snd (items v)) -> docOk o w) -> docOk o v.

(** The names of the members of each object, escapes decoded, are different. *)
Fixpoint distinct (v : cst) : Prop :=
  match v with
  | CLit _ _ => True
  | CArr es _ => (fix go es := match es with [] => True | e :: r => distinct (e_v e) /\ go r end) es
  | CObj ms _ =>
      NoDup (map (fun m => keyOf (m_kt m) (m_kx m)) ms)
      /\ (fix go ms := match ms with [] => True | m :: r => distinct (m_v m) /\ go r end) ms
  end.
Lemma distinct_arr : forall es w, distinct (CArr es w) <-> Forall (fun e => distinct (e_v e)) es.
Proof. intros es w. cbn [distinct]. induction es as [|e es IH]; split; intro X; auto; [constructor; tauto|inversion X; subst; tauto]. Qed.
Lemma distinct_obj : forall ms w, distinct (CObj ms w) <-> NoDup (map (fun m => keyOf (m_kt m) (m_kx m)) ms) /\ Forall (fun m => distinct (m_v m)) ms.
Proof.
  intros ms w. cbn [distinct]. apply and_iff_compat_l. induction ms as [|m ms IH]; split; intro X; auto; [constructor; tauto|inversion X; subst; tauto].
Qed.
