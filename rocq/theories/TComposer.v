(** Removing members from the text of an object: final statements (C42-C44). *)
From Coq Require Import String.
From Verif Require Import Base MTokenizer SJson MFastVal MExpr MMatcher PTokenizer PWf MComposer SComposer PComposer PRemove.
From Coq Require Import List NArith ZArith Arith Lia Bool.
Import ListNotations.
Open Scope nat_scope.

(** ** The dense text is the text of the tree without whitespace *)
Lemma commas_flat : forall (A : Type) (f : A -> bytes) l x, commas (map f (x :: l)) = f x ++ flat_map (fun y => 44%N :: f y) l.
Proof.
  intros A f. induction l as [|y l IH]; intro x; [cbn; now rewrite app_nil_r|].
  change (commas (map f (x :: y :: l))) with (f x ++ 44%N :: commas (map f (y :: l))). rewrite IH. reflexivity.
Qed.
Lemma dense_elts : forall es, Forall (fun e => dense (e_v e) = render (squeeze (e_v e))) es ->
  commas (map (fun e => dense (e_v e)) es) = render_elts true (map (fun e => Elt [] [] (squeeze (e_v e))) es).
Proof.
  assert (forall es, Forall (fun e => dense (e_v e) = render (squeeze (e_v e))) es ->
    render_elts false (map (fun e => Elt [] [] (squeeze (e_v e))) es) = flat_map (fun e => 44%N :: dense (e_v e)) es) as A.
  { induction 1 as [|e es He _ IH]; [reflexivity|]. cbn [map flat_map]. rewrite render_elts_cons. cbn [comma_text e_wl e_v e_wc app]. now rewrite IH, He. }
  intros es H. destruct H as [|e es He H]; [reflexivity|]. rewrite (commas_flat _ (fun e => dense (e_v e))). cbn [map]. rewrite render_elts_cons. cbn [comma_text e_wl e_v app]. now rewrite (A es H), <- He.
Qed.
Lemma dense_mems : forall ms, Forall (fun m => dense (m_v m) = render (squeeze (m_v m))) ms ->
  commas (map (fun m => m_kx m ++ [58%N] ++ dense (m_v m)) ms) = render_mems true (map (fun m => Mem [] [] (m_kt m) (m_kx m) [] [] (squeeze (m_v m))) ms).
Proof.
  assert (forall ms, Forall (fun m => dense (m_v m) = render (squeeze (m_v m))) ms ->
    render_mems false (map (fun m => Mem [] [] (m_kt m) (m_kx m) [] [] (squeeze (m_v m))) ms) = flat_map (fun m => 44%N :: m_kx m ++ [58%N] ++ dense (m_v m)) ms) as A.
  { induction 1 as [|m ms He _ IH]; [reflexivity|]. cbn [map flat_map]. rewrite render_mems_cons. cbn [comma_text m_wk m_wd m_wv m_kx m_v m_wc app]. rewrite IH, He. cbn [app]. now rewrite <- !app_assoc. }
  intros ms H. destruct H as [|m ms He H]; [reflexivity|]. rewrite (commas_flat _ (fun m => m_kx m ++ [58%N] ++ dense (m_v m))). cbn [map]. rewrite render_mems_cons. cbn [comma_text m_wk m_wd m_wv m_kx m_v app].
  rewrite (A ms H), <- He, <- app_assoc. reflexivity.
Qed.
Lemma dense_render : forall v, dense v = render (squeeze v).
Proof.
  induction v as [t x|es w IH|ms w IH] using cst_ind'; cbn [dense squeeze].
  - now rewrite render_lit.
  - now rewrite render_arr, <- dense_elts.
  - now rewrite render_obj, <- dense_mems.
Qed.
Lemma wf_squeeze : forall v, wf_cst v -> wf_cst (squeeze v).
Proof.
  induction v as [t x|es w IH|ms w IH] using cst_ind'; cbn [squeeze]; intro H; auto.
  - apply wf_arr in H as [_ H]. apply wf_arr. split; [constructor|]. apply Forall_forall. intros e He. apply in_map_iff in He as (e0 & <- & He0).
    rewrite Forall_forall in IH, H. destruct (H e0 He0) as (_ & _ & X). split; [constructor|]. split; [constructor|]. now apply IH.
  - apply wf_obj in H as [_ H]. apply wf_obj. split; [constructor|]. apply Forall_forall. intros m Hm. apply in_map_iff in Hm as (m0 & <- & Hm0).
    rewrite Forall_forall in IH, H. destruct (H m0 Hm0) as (_ & _ & _ & _ & X1 & X2 & X3).
    unfold wf_mem. cbn [m_wc m_wk m_wd m_wv m_kt m_kx m_v]. repeat (split; [now constructor|]). split; [exact X1|]. split; [exact X2|]. now apply IH.
Qed.
Lemma wf_without : forall names v, wf_cst v -> wf_cst (without names v).
Proof.
  intro names. induction v as [t x|es w IH|ms w IH] using cst_ind'; intro H; auto.
  - apply wf_arr in H as [Hw H]. cbn [without]. apply wf_arr. split; auto. apply Forall_forall. intros e He. apply in_map_iff in He as (e0 & <- & He0).
    rewrite Forall_forall in IH, H. destruct (H e0 He0) as (X1 & X2 & X). split; auto. split; auto. now apply IH.
  - apply wf_obj in H as [Hw H]. rewrite without_obj. apply wf_obj. split; auto. apply Forall_forall. intros m Hm. apply in_map_iff in Hm as (m0 & <- & Hm0).
    apply filter_In in Hm0 as [Hm0 _]. rewrite Forall_forall in IH, H. destruct (H m0 Hm0) as (X1 & X2 & X3 & X4 & X5 & X6 & X7).
    unfold wf_mem, wmem. cbn [m_wc m_wk m_wd m_wv m_kt m_kx m_v]. auto 10.
Qed.
(** ... and its tokens are those of the tree. *)
Lemma squeeze_toks : forall v w w', map snd (wtoks w (squeeze v)) = map snd (wtoks w' v).
Proof.
  induction v as [t x|es wcl IH|ms wcl IH] using cst_ind'; intros w w'; cbn [squeeze]; auto.
  - rewrite !wtoks_arr. cbn [map]. f_equal. rewrite !map_app. f_equal. generalize true as b.
    induction IH as [|e es He _ IH]; intro b; auto. cbn [map elts_toks]. rewrite !map_app. cbn [e_wc e_wl e_v]. f_equal; [now destruct b|]. f_equal; [apply He|apply IH].
  - rewrite !wtoks_obj. cbn [map]. f_equal. rewrite !map_app. f_equal. generalize true as b.
    induction IH as [|m ms He _ IH]; intro b; auto. cbn [map mems_toks]. rewrite !map_app. cbn [m_wc m_wk m_kt m_kx m_wd m_wv m_v map snd]. f_equal; [now destruct b|]. do 2 f_equal. rewrite !map_app. f_equal; [apply He|apply IH].
Qed.
Lemma render_concat : forall l, Forall (fun p : wtok => fst p = []) l -> wrender l = concat (map snd (map snd l)).
Proof. induction 1 as [|[w [t x]] l Hw _ IH]; auto. cbn in *. subst. now rewrite IH. Qed.
Lemma squeeze_flush : forall v, Forall (fun p : wtok => fst p = []) (wtoks [] (squeeze v)).
Proof.
  induction v as [t x|es wcl IH|ms wcl IH] using cst_ind'; cbn [squeeze]; [repeat constructor| |].
  - rewrite wtoks_arr. constructor; auto. apply Forall_app. split; [|repeat constructor]. generalize true as b.
    induction IH as [|e es He _ IH]; intro b; [constructor|]. cbn [map elts_toks e_wc e_wl e_v]. apply Forall_app. split; [destruct b; repeat constructor|]. apply Forall_app. auto.
  - rewrite wtoks_obj. constructor; auto. apply Forall_app. split; [|repeat constructor]. generalize true as b.
    induction IH as [|m ms He _ IH]; intro b; [constructor|]. cbn [map mems_toks m_wc m_wk m_kt m_kx m_wd m_wv m_v]. apply Forall_app. split; [destruct b; repeat constructor|].
    constructor; auto. constructor; auto. apply Forall_app. auto.
Qed.
Lemma dense_tokens : forall v, dense v = concat (map snd (ctoks v)).
Proof. intro v. rewrite dense_render. unfold render. rewrite render_concat by apply squeeze_flush. unfold ctoks. now rewrite (squeeze_toks v [] []). Qed.

(** ** The map of removed values *)
Lemma lookup_set : forall m k v k', lookup k' (rmap_set m k v) = if bytes_eqb k k' then Some v else lookup k' m.
Proof.
  intros m k v k'. unfold lookup, rmap_set. cbn [find fst]. destruct (bytes_eqb k k') eqn:E; [reflexivity|].
  induction m as [|[a b] m IH]; auto. cbn [filter fst find]. destruct (bytes_eqb a k) eqn:Ea; cbn [negb find fst].
  - rewrite IH. apply beqb_eq in Ea. subst a. now rewrite E.
  - destruct (bytes_eqb a k') eqn:Ek; auto.
Qed.
Lemma lookup_app : forall k a b, lookup k (a ++ b) = match lookup k a with Some x => Some x | None => lookup k b end.
Proof.
  intros k a b. unfold lookup. induction a as [|[x y] a IH]; cbn [app find fst]; [reflexivity|]. destruct (bytes_eqb x k); [reflexivity|exact IH].
Qed.
Lemma lookup_upd : forall l rm k, lookup k (upd rm l) = match lookup k (rev l) with Some x => Some x | None => lookup k rm end.
Proof.
  induction l as [|[a b] l IH]; intros rm k; [reflexivity|]. change (upd rm ((a, b) :: l)) with (upd (rmap_set rm a b) l).
  rewrite IH, lookup_set. cbn [rev]. rewrite lookup_app. destruct (lookup k (rev l)); auto. unfold lookup. cbn [find fst]. destruct (bytes_eqb a k); reflexivity.
Qed.

Lemma commas_nonempty : forall x l, x <> [] -> commas (x :: l) <> [].
Proof. intros [|c x] [|y l] H; try contradiction; discriminate. Qed.

Lemma mainLoop_end : forall f src names s q e, step src (k_pos s) = SOk TEnd q e -> mainLoop (S f) src names s = Ok (C8 e (k_c s) (k_depth s) (k_rm s) (k_n s)).
Proof. intros f src names s q e E. cbn [mainLoop]. now rewrite E. Qed.
Lemma run_value : forall names v dst removed, wf_cst v -> SComposer.plain v = false -> NoDup names -> length (render v) <= length dst ->
  exists s, mainLoop (S (S (length (render v)))) (render v) names (C8 0 (Composer dst 0 TUnknown) 0 removed 0) = Ok s
    /\ c_pos (k_c s) = length (dense (without names v)) /\ c_body (k_c s) = dense (without names v) ++ skipn (length (dense (without names v))) dst
    /\ k_depth s = stringEnds (without names v) /\ k_rm s = upd removed (taken names v) /\ k_n s = length (taken names v).
Proof.
  intros names v dst removed HW HPl ND HL. set (st := C8 0 (Composer dst 0 TUnknown) 0 removed 0).
  assert (wseq (wtoks [] v) []) as HWs by (apply wseq_wtoks; [exact HW|constructor|exact I]).
  assert (St (render v) dst (wtoks [] v ++ []) [] false 0 removed 0 st) as H0.
  { rewrite app_nil_r. unfold St, st, here, holds. change (wrender (wtoks [] v)) with (render v).
    cbn [k_pos k_c k_depth k_rm k_n c_pos c_body c_prev length app skipn tok_eqb].
    split; [split; [lia|split; [reflexivity|exact HWs]]|]. split; [split; reflexivity|]. do 4 (split; [reflexivity|]). exact HL. }
  destruct (goes_all (render v) dst names ND v HW _ _ _ _ _ _ _ _ HPl H0) as (s1 & (k & R1) & S1).
  cbn [app Nat.add] in S1. destruct S1 as (HH & (HP & HB) & _ & HD & HR & HN & _).
  destruct (here_end _ _ HH) as (qq & EE).
  exists (C8 (length (render v)) (k_c s1) (k_depth s1) (k_rm s1) (k_n s1)). cbn [k_c k_depth k_rm k_n]. split; [|auto].
  assert (mainLoop (k + 1) (render v) names st = Ok (C8 (length (render v)) (k_c s1) (k_depth s1) (k_rm s1) (k_n s1))) as EM.
  { rewrite R1. now apply mainLoop_end with qq. }
  assert (bounded (render v) (rest (render v) (Composer dst 0 TUnknown)) st) as HBd
    by (unfold bounded, st; cbn [k_pos k_c c_pos c_body c_prev]; repeat split; auto; try lia; discriminate).
  pose proof (mainLoop_bounded (S (S (length (render v)))) _ _ names _ HBd ltac:(unfold st; cbn [k_pos]; lia)) as HBm.
  set (F := S (S (length (render v)))) in *.
  assert (mainLoop F (render v) names st <> OutOfFuel) as NF by (intro Z; rewrite Z in HBm; exact HBm).
  pose proof (mainLoop_mono _ _ _ _ NF (k + 1)) as A. pose proof (mainLoop_mono (k + 1) (render v) names st ltac:(rewrite EM; discriminate) F) as B.
  rewrite Nat.add_comm in A. rewrite <- A, B. exact EM.
Qed.
Lemma looks_object : forall ms w, looksLikeObject (render (CObj ms w)) = true.
Proof.
  intros ms w. unfold looksLikeObject. rewrite render_obj. generalize (render_mems true ms) as a. intro a. rewrite app_assoc. generalize (a ++ w) as b. intro b. cbn [length nth]. rewrite app_length. cbn [length].
  replace (S (length b + 1) - 1) with (S (length b)) by lia. cbn [nth]. rewrite app_nth2, Nat.sub_diag by lia. cbn [nth N.eqb Pos.eqb andb].
  destruct (Nat.leb_spec 2 (S (length b + 1))); [reflexivity|lia].
Qed.

(** C42.  Without array endings in a plain string, the destination starts with the
    text, without whitespace, of the object without the named members at any depth,
    and is not changed beyond; the count and the values taken out are exact, the
    last of several members of a name.  With such an array, an error. *)
Theorem C42_remove : forall names ms w dst removed, let v := CObj ms w in
  wf_cst v -> NoDup names -> length (render v) <= length dst ->
  let out := render (squeeze (without names v)) in
  (stringEnds (without names v) = 0 ->
   exists r, removeItems (render v) names dst removed = Ok r
     /\ r_dst r = out ++ skipn (length out) dst /\ r_len r = length out
     /\ wf_cst (squeeze (without names v))
     /\ r_count r = length (taken names v)
     /\ (r_left r = true <-> membersOf (without names v) <> [])
     /\ forall k, lookup k (r_removed r) = match lookup k (rev (taken names v)) with Some x => Some x | None => lookup k removed end)
  /\ (stringEnds (without names v) <> 0 -> removeItems (render v) names dst removed = Err).
Proof.
  intros names ms w dst removed v HW ND HL out.
  destruct (run_value names v dst removed HW eq_refl ND HL) as (s1 & EF & HP & HB & HD & HR & HN).
  assert (looksLikeObject (render v) = true) as EL by apply looks_object.
  unfold removeItems. rewrite EL, EF. cbn [obind]. rewrite HD.
  assert (dense (without names v) = out) as ED by apply dense_render. rewrite ED in HP, HB. split; intro HS.
  - rewrite HS. cbn [Nat.eqb]. eexists. split; [reflexivity|]. cbn [r_dst r_len r_count r_left r_removed]. split; [exact HB|]. split; [exact HP|].
    split; [now apply wf_squeeze, wf_without|]. split; [exact HN|]. split.
    + rewrite HP, <- ED. unfold v. rewrite without_obj. cbn [dense membersOf app length]. rewrite app_length, map_map. cbn [length wmem m_kx].
      destruct (kept names ms) as [|m l] eqn:EK; cbn [map].
      * cbn. split; [discriminate|contradiction].
      * split; [discriminate|intros _]. apply Nat.ltb_lt.
        assert (m_kx m <> []) as HX.
        { apply wf_obj in HW as [_ HW]. rewrite Forall_forall in HW. assert (In m ms) as Hm by (apply (proj1 (filter_In (fun m => negb (named names m)) m ms)); fold (kept names ms); rewrite EK; now left).
          destruct (HW m Hm) as (_ & _ & _ & _ & _ & X & _). eapply lex_nonempty; eauto. }
        match goal with |- context [commas (?x :: ?l)] => assert (commas (x :: l) <> []) as HC by (apply commas_nonempty; destruct (m_kx m); [contradiction|discriminate]); destruct (commas (x :: l)); [contradiction|cbn; lia] end.
    + intro key. rewrite HR. apply lookup_upd.
  - destruct (Nat.eqb_spec (stringEnds (without names v)) 0); [contradiction|reflexivity].
Qed.

(** C43.  No member of a listed name anywhere: the tokens of the text, one after the
    other, and nothing is removed. *)
Inductive nowhere (names : list bytes) : cst -> Prop :=
| nw_lit : forall t x, nowhere names (CLit t x)
| nw_arr : forall es w, Forall (fun e => nowhere names (e_v e)) es -> nowhere names (CArr es w)
| nw_obj : forall ms w, Forall (fun m => (m_kt m = TString -> forall nm, In nm names -> m_kx m <> 34%N :: nm ++ [34%N]) /\ nowhere names (m_v m)) ms -> nowhere names (CObj ms w).
Lemma nowhere_same : forall names v, wf_cst v -> nowhere names v -> without names v = v /\ taken names v = [].
Proof.
  intro names. induction v as [t x|es w IH|ms w IH] using cst_ind'; intros HW HN; auto.
  - apply wf_arr in HW as [_ HW]. inversion HN as [|es' w' HE|]; subst. cbn [without taken].
    assert (map (fun e => Elt (e_wc e) (e_wl e) (without names (e_v e))) es = es /\ flat_map (fun e => taken names (e_v e)) es = []) as [-> ->]; auto.
    clear HN. induction IH as [|e es He _ IH]; auto. inversion HE as [|a b E1 E2]; subst. inversion HW as [|a b W1 W2]; subst. destruct (IH W2 E2) as [A B]. destruct W1 as (_ & _ & W1).
    destruct (He W1 E1) as [C D]. cbn [map flat_map]. rewrite A, B, C, D. now destruct e.
  - apply wf_obj in HW as [_ HW]. inversion HN as [| |ms' w' HE]; subst. rewrite without_obj. cbn [taken].
    assert (map (wmem names) (kept names ms) = ms /\ flat_map (fun m => if named names m then [(inner (m_kx m), m_wv m ++ render (m_v m))] else taken names (m_v m)) ms = []) as [-> ->]; auto.
    clear HN. induction IH as [|m ms He _ IH]; auto. inversion HE as [|a b [E0 E1] E2]; subst. inversion HW as [|a b W1 W2]; subst. destruct (IH W2 E2) as [A B].
    destruct W1 as (_ & _ & _ & _ & _ & WX & W1). destruct (He W1 E1) as [C D].
    assert (named names m = false) as EN.
    { destruct (named names m) eqn:EN; auto. exfalso. apply andb_true_iff in EN as [ET EN]. apply tok_eqb_eq in ET. apply existsb_exists in EN as (nm & Hn & EN). apply beqb_eq in EN.
      rewrite ET in WX. apply (E0 ET _ Hn). rewrite <- EN. unfold inner. inversion WX. cbn [tl]. now rewrite removelast_last. }
    unfold kept. cbn [filter flat_map]. rewrite EN. cbn [negb map]. fold (kept names ms). rewrite A, B, D. unfold wmem. rewrite C. now destruct m.
Qed.
Theorem C43_nothing_removed : forall names ms w dst removed, let v := CObj ms w in
  wf_cst v -> NoDup names -> nowhere names v -> length (render v) <= length dst -> stringEnds v = 0 ->
  let out := concat (map snd (ctoks v)) in
  exists r, removeItems (render v) names dst removed = Ok r /\ firstn (r_len r) (r_dst r) = out /\ r_count r = 0
    /\ forall k, lookup k (r_removed r) = lookup k removed.
Proof.
  intros names ms w dst removed v HW ND HN HL HS out. destruct (nowhere_same names v HW HN) as [E1 E2].
  destruct (C42_remove names ms w dst removed HW ND HL) as [X _]. fold v in X. rewrite E1, E2 in X. destruct (X HS) as (r & ER & RD & RL & _ & RC & _ & RR).
  exists r. split; auto. assert (render (squeeze v) = out) as EO by (rewrite <- dense_render; apply dense_tokens). rewrite EO in RD, RL.
  split; [|split; auto]. rewrite RD, RL, firstn_app, firstn_all, Nat.sub_diag, firstn_O. apply app_nil_r.
Qed.

(** C44.  Arbitrary bytes and names: no panic, every loop ends, and only the first
    [length src] bytes of the destination are written. *)
Theorem C44_in_bounds : forall src names dst removed, length src <= length dst ->
  match removeItems src names dst removed with
  | Ok r => r_len r <= length src /\ length (r_dst r) = length dst /\ skipn (length src) (r_dst r) = skipn (length src) dst
  | Err => True
  | _ => False
  end.
Proof.
  intros src names dst removed HL. unfold removeItems. destruct (looksLikeObject src); [|exact I]. set (st := C8 0 (Composer dst 0 TUnknown) 0 removed 0).
  assert (bounded src (rest src (Composer dst 0 TUnknown)) st) as HB by (unfold bounded, st; cbn [k_pos k_c c_pos c_body c_prev]; repeat split; auto; try lia; discriminate).
  pose proof (mainLoop_bounded (S (S (length src))) _ _ names _ HB ltac:(unfold st; cbn [k_pos]; lia)) as HM.
  destruct (mainLoop (S (S (length src))) src names st) as [s| | |]; cbn [obind]; try exact HM; auto.
  destruct (k_depth s =? 0); [|exact I]. cbn [r_len r_dst]. destruct HM as (B1 & B2 & B3 & B4 & B5). unfold rest in B5. cbn [c_body] in B5. injection B5 as B5 B6. repeat split; auto. lia.
Qed.

(** ** What goes wrong *)
Open Scope string_scope.
(** An array ending in a plain string: the text is refused even if nothing is named. *)
Theorem C43_string_end_refuted : removeItems (s2b "{""a"":[""x""]}") [] (repeat 0%N 20) [] = Err.
Proof. vm_compute. reflexivity. Qed.
(** A name written with an escape is not removed. *)
Theorem C42_escaped_name_refuted : exists r, removeItems (s2b "{""\u0061"":1}") [s2b "a"] (repeat 0%N 20) [] = Ok r /\ r_count r = 0.
Proof.
  match goal with |- exists r, ?x = Ok r /\ _ => let y := eval vm_compute in x in match y with Ok ?r => exists r; split; [vm_compute; reflexivity|reflexivity] end end.
Qed.
(** The same name twice in the list: the next member's name is taken for a value. *)
Theorem C42_duplicate_names_refuted : removeItems (s2b "{""a"":1,""b"":2}") [s2b "a"; s2b "a"] (repeat 0%N 20) [] = Err.
Proof. vm_compute. reflexivity. Qed.
(** A destination shorter than the source may be overrun: a panic, not an error. *)
Theorem C44_short_refuted : removeItems (s2b "{""a"":1}") [] (repeat 0%N 3) [] = Panic.
Proof. vm_compute. reflexivity. Qed.

(** ** Cases meeting the hypotheses *)
Definition exR : cst := CObj [Mem [] [32%N] TString (s2b """a""") [] [32%N] (obj [("x", lit "1"); ("y", str "s")]);
  mb "x" (arr [obj [("x", lit "2")]; lit "3"]); Mem [10%N] [] TString (s2b """b""") [9%N] [] (arr [obj [("x", lit "5")]; str "q"; lit "null"])] [10%N].
Example C42_case : wf_cst exR /\ NoDup [s2b "x"; s2b "z"] /\ stringEnds (without [s2b "x"; s2b "z"] exR) = 0
  /\ render (squeeze (without [s2b "x"; s2b "z"] exR)) = s2b "{""a"":{""y"":""s""},""b"":[{},""q"",null]}"
  /\ map fst (taken [s2b "x"; s2b "z"] exR) = [s2b "x"; s2b "x"; s2b "x"].
Proof.
  split; [apply wfb_ok; vm_compute; reflexivity|]. split; [|repeat split; vm_compute; reflexivity].
  constructor; [intros [E|[]]; discriminate E|]. constructor; [intros []|constructor].
Qed.
Example C42_error_case : stringEnds (without [s2b "x"] (obj [("b", arr [lit "1"; str "q"]); ("x", lit "1")])) = 1.
Proof. reflexivity. Qed.
Example C43_case : nowhere [s2b "z"] exR /\ stringEnds exR = 0.
Proof.
  split; [|reflexivity]. repeat constructor; cbn [m_kt m_kx mb]; try (intros _ nm [<-|[]]; discriminate).
Qed.
(** Not JSON, but accepted. *)
Example C44_case : exists r, removeItems (s2b "{1 ,""a"":2 }") [s2b "b"] (repeat 7%N 15) [] = Ok r /\ r_len r = 9 /\ skipn 9 (r_dst r) = repeat 7%N 6.
Proof.
  match goal with |- exists r, ?x = Ok r /\ _ => let y := eval vm_compute in x in match y with Ok ?r => exists r; split; [vm_compute; reflexivity|split; reflexivity] end end.
Qed.

Print Assumptions C42_remove.
Print Assumptions C42_escaped_name_refuted.
Print Assumptions C42_duplicate_names_refuted.
Print Assumptions C43_nothing_removed.
Print Assumptions C43_string_end_refuted.
Print Assumptions C44_in_bounds.
Print Assumptions C44_short_refuted.
