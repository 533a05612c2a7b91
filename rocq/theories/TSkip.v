(** Skipping values and layout independence of a run: final statements (C25). *)
From Coq Require Import String.
From Verif Require Import Base MTokenizer SJson PTokenizer MLit MFastVal MMath SEvents MBinTree MSession MExpr
  MTransform MMatcher MTree PTree PWf.
From Coq Require Import List NArith ZArith Arith Lia Bool.
Import ListNotations.
Open Scope nat_scope.

(** ** C25 *)

(** Whatever precedes and follows a value (a number must be followed by something
    that is not part of a number): reading its first token and skipping leaves the
    tokenizer exactly behind the value, and reports no error. *)
Theorem C25_skip_lands_after_value : forall o H T pre v tail s,
  wf_cst v ->
  (match v with CLit t _ => num_kind t -> num_stop tail | _ => True end) ->
  let doc := pre ++ render v ++ tail in
  exists t b, step doc (length pre) = SOk t (length pre) b /\
    skipValue (MEnv o H T doc) t (setPos s b)
    = Ok (setPos s (length pre + length (render v)), false).
Proof.
  intros o H T pre v tail s Hv Ht doc.
  assert (Hp : skipn (length pre) doc = render v ++ tail) by (now apply skipn_app_exact).
  destruct v as [t lx|es wcl|ms wcl].
  - destruct Hv as [Hk Hl]. exists t, (length pre + length lx). rewrite render_lit in *. split.
    + pose proof (step_complete doc (length pre) [] t lx tail Hp ws_nil Hl Ht) as X. cbn in X.
      now rewrite Nat.add_0_r in X.
    + unfold skipValue. rewrite (ftok_lit_kind t Hk). reflexivity.
  - exists TArrayStart, (length pre + 1). apply wf_arr in Hv as [Hw Hes]. rewrite render_arr in *. split.
    + pose proof (step_complete doc (length pre) [] TArrayStart [91%N] _ Hp ws_nil) as X. cbn in X.
      rewrite Nat.add_0_r in X. apply X; [constructor|]. unfold num_kind. cbn. intuition congruence.
    + unfold skipValue. cbn [isLiteralToken].
      etransitivity; [apply (leave_arr o H T doc true es wcl tail (setPos s (length pre + 1)))|].
      * cbn [setPos ms_pos]. split; auto. replace (length pre + 1) with (length pre + length [91%N]) by (cbn; lia).
        apply skipn_skipn_app. rewrite Hp. cbn [app]. f_equal. now rewrite <- !app_assoc.
      * unfold arr_len. cbn [setPos ms_pos ms_slots ms_data ms_stall ms_coll length].
        rewrite <- Nat.add_assoc. reflexivity.
  - exists TObjectStart, (length pre + 1). apply wf_obj in Hv as [Hw Hes]. rewrite render_obj in *. split.
    + pose proof (step_complete doc (length pre) [] TObjectStart [123%N] _ Hp ws_nil) as X. cbn in X.
      rewrite Nat.add_0_r in X. apply X; [constructor|]. unfold num_kind. cbn. intuition congruence.
    + unfold skipValue. cbn [isLiteralToken].
      etransitivity; [apply (leave_obj o H T doc true ms wcl tail (setPos s (length pre + 1)))|].
      * cbn [setPos ms_pos]. split; auto. replace (length pre + 1) with (length pre + length [123%N]) by (cbn; lia).
        apply skipn_skipn_app. rewrite Hp. cbn [app]. f_equal. now rewrite <- !app_assoc.
      * unfold obj_len. cbn [setPos ms_pos ms_slots ms_data ms_stall ms_coll length].
        rewrite <- Nat.add_assoc. reflexivity.
Qed.

(** An object nested in an array, followed by junk. *)
Example C25_example : forall o,
  let v := CObj [Mem [] (s2b " ") TString (s2b """a""") [] []
                   (CArr [Elt [] [] (CLit TInteger (s2b "1")); Elt [] [] (CObj [] [])] [])] (s2b " ") in
  wf_cst v /\
  render v = s2b "{ ""a"":[1,{}] }" /\
  skipValue (MEnv o [] [] (s2b "[" ++ render v ++ s2b "]]]}")) TObjectStart (MSt [] [] 0 2 false)
  = Ok (MSt [] [] 0 15 false, false).
Proof. intros o v. split; [now apply wfb_ok|]. split; reflexivity. Qed.

Print Assumptions C25_skip_lands_after_value.
