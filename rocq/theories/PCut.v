(** [Match] on a text that goes on in any way after the members that settle the
    filters. *)
From Verif Require Import Base MTokenizer SJson MLit PLit PTokenizer MFastVal MBinTree MSession MExpr MTransform MMatcher MTree SDoc PTree.
From Coq Require Import List NArith ZArith Arith Lia Bool.
Import ListNotations.
Open Scope nat_scope.

Lemma nonempty : forall l : bytes, l <> [] -> exists c r, l = c :: r.
Proof. intros [|c r] X; [contradiction|eauto]. Qed.

Section Cut.
  Variable o : oracles.
  Variable H : list execnode.
  Variable T : list node.
  Variable w1 : bytes.
  Variable ms1 : list (mem cst).
  Variable w0 : bytes.
  Variable tail : bytes.
  Hypothesis Hw1 : ws w1.
  Hypothesis Hms : Forall wf_mem ms1.
  Hypothesis Htail : num_stop tail.
  Let root := CObj ms1 w0.
  Let doc : bytes := w1 ++ 123%N :: render_mems true ms1 ++ tail.
  Notation E := (E o H T doc).
  Notation rel := (rel doc).

  Lemma cut_step : step doc 0 = SOk (ftok root) (length w1) (length w1 + flen root).
  Proof.
    cbn [ftok flen root]. change (length w1) with (0 + length w1) at 1 2.
    eapply (step_complete doc 0 w1 TObjectStart [123%N]); [reflexivity|auto|constructor|].
    unfold num_kind. cbn. intuition congruence.
  Qed.
  Let sim := sim_all o H T w1 root doc cut_step I.

  Definition cut_at (p : nat) (first : bool) (ms : list (mem cst)) : Prop :=
    skipn p doc = render_mems first ms ++ tail /\ Forall wf_mem ms.

  Lemma num_stop_cut : forall ms, Forall wf_mem ms -> num_stop (render_mems false ms ++ tail).
  Proof.
    intros [|e r] Hes; [exact Htail|].
    rewrite render_mems_cons. cbn [comma_text]. inversion Hes as [|? ? (Hwc & _) _]; subst.
    rewrite <- !app_assoc. apply num_stop_ws; auto. apply num_stop_sep. cbn; auto.
  Qed.

  Lemma mem_cut : forall p first m r, cut_at p first (m :: r) ->
    let p0 := p + length (comma_text first (m_wc m)) in
    let k := p0 + length (m_wk m) in
    let p1 := k + length (m_kx m) in
    let p2 := p1 + length (m_wd m) + 1 in
    let a := p2 + length (m_wv m) in
    (first = false -> step doc p = SOk TListDelim (p + length (m_wc m)) p0)
    /\ step doc p0 = SOk (m_kt m) k p1 /\ slice doc k p1 = m_kx m
    /\ step doc p1 = SOk TObjectKeyDelim (p1 + length (m_wd m)) p2
    /\ step doc p2 = SOk (ftok (m_v m)) a (a + flen (m_v m))
    /\ at_val doc a (m_v m)
    /\ cut_at (a + length (render (m_v m))) false r.
  Proof.
    intros p first m r (Hp & Hes).
    inversion Hes as [|? ? (Hwc & Hwk & Hwd & Hwv & Hk & Hx & Hv) Hr]; subst.
    rewrite render_mems_cons in Hp. rewrite <- !app_assoc in Hp. cbn zeta.
    pose proof (skipn_skipn_app _ _ _ _ _ Hp) as Hp0.
    pose proof (skipn_skipn_app _ _ _ _ _ Hp0) as Hpk.
    pose proof (skipn_skipn_app _ _ _ _ _ Hpk) as Hp1.
    pose proof (skipn_skipn_app _ _ _ _ _ Hp1) as Hpc.
    pose proof (skipn_skipn_app _ _ _ _ _ Hpc) as Hp2. cbn [length] in Hp2.
    assert (num_stop (render_mems false r ++ tail)) as Hns by (now apply num_stop_cut).
    repeat match goal with |- _ /\ _ => split end.
    - intros ->. cbn [comma_text] in *. rewrite <- app_assoc in Hp. rewrite app_length. cbn [length].
      rewrite Nat.add_assoc. eapply (step_complete _ _ _ TListDelim [44%N]); [exact Hp|auto|constructor|].
      unfold num_kind. cbn. intuition congruence.
    - eapply step_complete; [exact Hp0|auto|auto|]. intro N. destruct (key_not_num _ Hk N).
    - eapply slice_from_skipn. exact Hpk.
    - eapply (step_complete _ _ _ TObjectKeyDelim [58%N]); [exact Hp1|auto|constructor|].
      unfold num_kind. cbn. intuition congruence.
    - eapply step_val; [exact Hv|exact Hwv| |exact Hp2]. exact Hns.
    - split; [exact Hv|]. eexists. split; [|eapply skipn_skipn_app; exact Hp2]. exact Hns.
    - split; [|auto]. apply skipn_skipn_app. now apply skipn_skipn_app.
  Qed.

  Lemma members_cut : forall f ms x (first : bool) i s t t' out, cut_at (ms_pos s) first ms -> rel s t ->
    tOA o H T root f (map (fun m => (keyOf (m_kt m) (m_kx m), m_v m)) ms) x first t = Ok (t', out, out) -> (out = false -> ws tail) ->
    exists s', matchOA f E TObjectStart x first i s = Ok (s', false, true) /\ rel s' t'.
  Proof.
    induction f as [|f IH]; intros ms x first i s t t' out HA HR He Hw; [discriminate|].
    rewrite tOA_S in He. cbn [matchOA]. cbn [PTree.E me_doc me_tree isArr endTok].
    destruct ms as [|m r]; cbn [map] in He.
    { injection He as <- E1 E2. subst first out. destruct HA as (Hp & _). change (skipn (ms_pos s) doc = tail) in Hp.
      destruct (step_end doc (ms_pos s)) as (q & -> & _); [rewrite Hp; auto|].
      eexists. split; [reflexivity|exact HR]. }
    destruct (mem_cut _ _ _ _ HA) as (Hc & Hs & Hk & Hs1 & Hs2 & Hv & Hrest). cbn zeta in *.
    assert (key_kind (m_kt m)) as HKk by (destruct HA as (_ & X); inversion X as [|? ? (_&_&_&_&Y&_) _]; auto).
    set (k := ms_pos s + length (comma_text first (m_wc m)) + length (m_wk m)) in *.
    set (p1 := k + length (m_kx m)) in *. set (p2 := p1 + length (m_wd m) + 1) in *.
    set (a := p2 + length (m_wv m)) in *.
    destruct (keyOf (m_kt m) (m_kx m)) as [key| | |] eqn:Ek; try discriminate. cbn [obind] in He.
    assert (forall j s0, rel s0 t -> ms_pos s0 = ms_pos s + length (comma_text first (m_wc m)) ->
      exists s', (match step doc (ms_pos s0) with
           | SErr => Ok (s0, true, true)
           | SOk t1 a1 b1 =>
            let sa := setPos s0 b1 in
            if tok_eqb t1 TObjectEnd then Ok (sa, false, true)
            else
              do kv <-
                (do key <- keyOf t1 (slice doc a1 b1);
                   match step doc (ms_pos sa) with
                   | SErr => Ok None
                   | SOk t2 _ b2 =>
                       if tok_eqb t2 TObjectKeyDelim then
                         match step doc b2 with
                         | SErr => Ok None
                         | SOk t3 a3 b3 => Ok (Some (key, t3, a3, setPos sa b3))
                         end
                       else Panic
                   end);
              match kv with
              | None =>
                  Ok (match step doc (ms_pos sa) with
                      | SErr => sa
                      | SOk _ _ b2 => setPos sa b2
                      end, true, true)
              | Some (key, tv, av, s2) =>
                  match lookup key (x_elems x) with
                  | Some c =>
                      do (s3, _) <- matchExec f E tv av c s2;
                      do done <- isResolved (ms_data s3) 0;
                      if done : bool then Ok (s3, false, true)
                      else matchOA f E TObjectStart x false j s3
                  | None =>
                      do (s3, _) <- skipValue E tv s2;
                      matchOA f E TObjectStart x false j s3
                  end
              end
           end) = Ok (s', false, true) /\ rel s' t') as Hbody.
    { intros j s0 HR0 Hp0. cbn beta. rewrite Hp0, Hs. cbn zeta. rewrite (key_not_delim _ HKk). rewrite Hk, Ek. cbn [obind].
      cbn [setPos ms_pos]. rewrite Hs1.
      assert (tok_eqb TObjectKeyDelim TObjectKeyDelim = true) as Et by reflexivity. rewrite Et, Hs2. cbn [obind].
      destruct (lookup key (x_elems x)) as [c|].
      - pose proof (proj1 (sim f) (m_v m) c (setPos s0 (a + flen (m_v m))) t a Hv HR0 eq_refl) as X.
        destruct (tExec o H T root f (m_v m) c t) as [[t2 out0]| | |]; try discriminate. cbn [obind] in He.
        destruct X as ([s2 err] & E2 & R2 & _ & P2). cbn [fst snd] in *.
        change (setPos (setPos s0 p1) (a + flen (m_v m))) with (setPos s0 (a + flen (m_v m))).
        rewrite E2. cbn [obind]. rewrite (rel_data _ _ _ R2).
        destruct (isResolved (ts_data t2) 0) as [dn| | |]; try discriminate. cbn [obind] in *. destruct dn.
        + injection He as <- <-. eauto.
        + destruct out0; [discriminate|]. specialize (P2 eq_refl). rewrite <- P2 in Hrest. eapply IH; eauto.
      - rewrite (skip_val o H T doc a (m_v m)) by (auto; reflexivity). cbn [obind]. eapply IH; eauto. }
    destruct first.
    - apply Hbody; [exact HR|cbn; lia].
    - rewrite (Hc eq_refl). apply Hbody; [exact HR|reflexivity].
  Qed.

  (** The whole of [Match]. *)
  Theorem match_cut : forall fuel D s t x ta r, d_heap D = Some H -> d_tree D = T -> rel s t ->
    idx H 0 = Ok x -> x_elems x <> [] ->
    tOA o H T root fuel (items root) x true t = Ok (ta, true, true) ->
    tMatch o H T root (S fuel) t = Ok r ->
    exists sf, match_ (S fuel) o D doc s = Ok (sf, Some (snd r)) /\ rel sf (fst r).
  Proof.
    intros fuel D s t x ta r HH HT HR Hx Hne Hoa HM. unfold match_.
    assert (exists c0 dr, doc = c0 :: dr) as (c0 & dr & Ed).
    { apply nonempty. unfold doc. intro X. apply app_eq_nil in X as [_ X]. discriminate. }
    replace (match doc with [] => _ | _ :: _ => _ end) with
      (match step doc 0 with
      | SErr => Ok (setPos s 0, None)
      | SOk t a b =>
          match d_heap D with
          | None => Panic
          | Some h =>
              let E := MEnv o h (d_tree D) doc in
              do (sa, err) <- matchExec (S fuel) E t a 0 (setPos (setPos s 0) b);
              if err : bool then Ok (sa, None)
              else
                do d <- resolveAll (d_tree D) (ms_stall sa) (ms_data sa);
                do r <- isTrue d 0;
                Ok (setData sa d, Some r)
          end
      end) by (rewrite Ed; reflexivity).
    clear c0 dr Ed. rewrite cut_step, HH, HT. cbn zeta.
    unfold tMatch in HM.
    destruct (tExec o H T root (S fuel) root 0 t) as [[t3 o3]| | |] eqn:Et; try discriminate. cbn [obind] in HM.
    assert (exists s3, matchExec (S fuel) E (ftok root) (length w1) 0 (setPos (setPos s 0) (length w1 + flen root)) = Ok (s3, false) /\ rel s3 t3) as (s3 & E3 & R3).
    { rewrite tExec_S, Hx in Et. cbn [obind] in Et. cbn zeta in Et. cbn [matchExec]. cbn [PTree.E me_heap me_o me_doc]. rewrite Hx. cbn [obind].
      unfold root in Et at 2. cbn match in Et. cbn [ftok root isLiteralToken].
      destruct (x_elems x) as [|e0 er] eqn:El; [contradiction|]. fold root in Et. rewrite Hoa in Et. cbn [obind] in Et.
      destruct (members_cut fuel ms1 x true 0 (setPos (setPos s 0) (length w1 + flen root)) t ta true) as (s2 & E2 & R2).
      - split; [|auto]. cbn [setPos ms_pos flen root]. unfold doc. replace (length w1 + 1) with (length (w1 ++ [123%N])) by (rewrite app_length; reflexivity).
        change (w1 ++ 123%N :: render_mems true ms1 ++ tail) with (w1 ++ [123%N] ++ render_mems true ms1 ++ tail). rewrite app_assoc.
        now apply skipn_app_exact.
      - exact HR.
      - exact Hoa.
      - discriminate.
      - rewrite E2. cbn [obind].
        destruct (x_after x) as [af|].
        + pose proof (proj1 (proj2 (proj2 (proj2 (proj2 (proj2 (proj2 (sim fuel))))))) af s2 ta R2) as X.
          destruct (tAfter o H T root fuel af ta) as [[t4 o4]| | |]; try discriminate. cbn [obind] in Et.
          destruct X as ([s4 e4] & -> & R4 & E4 & _). cbn [fst snd obind] in *. subst e4.
          destruct (isResolved (ts_data t4) 0) as [dn| | |]; try discriminate. destruct dn; try discriminate. injection Et as <- _.
          eauto.
        + cbn [obind] in *. destruct (isResolved (ts_data ta) 0) as [dn| | |]; try discriminate. destruct dn; try discriminate. injection Et as <- _. eauto. }
    unfold PTree.E in E3. rewrite E3. cbn [obind]. rewrite (rel_data _ _ _ R3). replace (ms_stall s3) with (ts_stall t3) by (symmetry; apply R3).
    destruct (resolveAll T (ts_stall t3) (ts_data t3)) as [d| | |]; try discriminate. cbn [obind] in *.
    destruct (isTrue d 0) as [b| | |]; try discriminate. cbn [obind] in *. injection HM as <-. eexists. split; [reflexivity|]. now apply rel_setData.
  Qed.

  (** The same when the text ends behind the members, settled or not. *)
  Theorem match_end : forall fuel D s t x ta out tb b d r, d_heap D = Some H -> d_tree D = T -> rel s t ->
    idx H 0 = Ok x -> x_elems x <> [] ->
    tOA o H T root fuel (items root) x true t = Ok (ta, out, out) -> (out = false -> ws tail) ->
    match x_after x with None => Ok (ta, false) | Some af => tAfter o H T root fuel af ta end = Ok (tb, b) ->
    resolveAll T (ts_stall tb) (ts_data tb) = Ok d -> isTrue d 0 = Ok r ->
    exists sf, match_ (S fuel) o D doc s = Ok (sf, Some r) /\ ms_data sf = d.
  Proof.
    intros fuel D s t x ta out tb b d r HH HT HR Hx Hne Hoa Hw Haf Hres Htr. unfold match_.
    assert (exists c0 dr, doc = c0 :: dr) as (c0 & dr & Ed).
    { apply nonempty. unfold doc. intro X. apply app_eq_nil in X as [_ X]. discriminate. }
    replace (match doc with [] => _ | _ :: _ => _ end) with
      (match step doc 0 with
      | SErr => Ok (setPos s 0, None)
      | SOk t a b =>
          match d_heap D with
          | None => Panic
          | Some h =>
              let E := MEnv o h (d_tree D) doc in
              do (sa, err) <- matchExec (S fuel) E t a 0 (setPos (setPos s 0) b);
              if err : bool then Ok (sa, None)
              else
                do d <- resolveAll (d_tree D) (ms_stall sa) (ms_data sa);
                do r <- isTrue d 0;
                Ok (setData sa d, Some r)
          end
      end) by (rewrite Ed; reflexivity).
    clear c0 dr Ed. rewrite cut_step, HH, HT. cbn zeta.
    assert (exists s3, matchExec (S fuel) E (ftok root) (length w1) 0 (setPos (setPos s 0) (length w1 + flen root)) = Ok (s3, false) /\ rel s3 tb) as (s3 & E3 & R3).
    { cbn [matchExec]. cbn [PTree.E me_heap me_o me_doc]. rewrite Hx. cbn [obind]. cbn [ftok root isLiteralToken].
      destruct (x_elems x) as [|e0 er] eqn:El; [contradiction|].
      destruct (members_cut fuel ms1 x true 0 (setPos (setPos s 0) (length w1 + flen root)) t ta out) as (s2 & E2 & R2).
      - split; [|auto]. cbn [setPos ms_pos flen root]. unfold doc. replace (length w1 + 1) with (length (w1 ++ [123%N])) by (rewrite app_length; reflexivity).
        change (w1 ++ 123%N :: render_mems true ms1 ++ tail) with (w1 ++ [123%N] ++ render_mems true ms1 ++ tail). rewrite app_assoc.
        now apply skipn_app_exact.
      - exact HR.
      - exact Hoa.
      - exact Hw.
      - rewrite E2. cbn [obind].
        destruct (x_after x) as [af|].
        + pose proof (proj1 (proj2 (proj2 (proj2 (proj2 (proj2 (proj2 (sim fuel))))))) af s2 ta R2) as X. rewrite Haf in X.
          destruct X as ([s4 e4] & -> & R4 & E4 & _). cbn [fst snd obind] in *. eauto.
        + injection Haf as <- <-. cbn [obind]. eauto. }
    unfold PTree.E in E3. rewrite E3. cbn [obind]. rewrite (rel_data _ _ _ R3). replace (ms_stall s3) with (ts_stall tb) by (symmetry; apply R3).
    rewrite Hres. cbn [obind]. rewrite Htr. cbn [obind]. eexists. split; reflexivity.
  Qed.
End Cut.
