(** Paths name what the document's text says; string constants through the whole
    matcher: final statements (C19, C49). *)
From Coq Require Import String.
From Verif Require Import Base MTokenizer SJson SUnicode SNames MLit PLit TLit MFastVal PFastVal TFastVal MExpr MTransform SFilter MMatcher MTree SDoc SSat SSem
  PWf PTrace PMatch PCheck SExamples TMatch.
From Coq Require Import List NArith ZArith Arith Lia Bool Permutation Decimal DecimalN.
Import ListNotations.
Open Scope nat_scope.

(** ** Decimal numbers *)
Lemma of_acc : forall u acc, Zpos (Pos.of_uint_acc u acc) = dec_val (Zpos acc) (uint_bytes u).
Proof. induction u; intro acc; cbn [Pos.of_uint_acc uint_bytes dec_val]; auto; rewrite IHu; f_equal; lia. Qed.
Lemma of_uint_val : forall u, Z.of_N (N.of_uint u) = dec_val 0 (uint_bytes u).
Proof. unfold N.of_uint. induction u; cbn [Pos.of_uint uint_bytes dec_val]; auto; cbn [Z.of_N]; rewrite of_acc; reflexivity. Qed.

Fixpoint toU (l : bytes) : uint :=
  match l with
  | [] => Nil
  | c :: r =>
      let u := toU r in
      if (c =? 48)%N then D0 u else if (c =? 49)%N then D1 u else if (c =? 50)%N then D2 u else if (c =? 51)%N then D3 u
      else if (c =? 52)%N then D4 u else if (c =? 53)%N then D5 u else if (c =? 54)%N then D6 u else if (c =? 55)%N then D7 u
      else if (c =? 56)%N then D8 u else D9 u
  end.
Lemma digit_cases : forall c, digit c -> In c [48; 49; 50; 51; 52; 53; 54; 55; 56; 57]%N.
Proof. intros c H. unfold digit in H. cbn [In]. lia. Qed.
Lemma toU_bytes : forall l, Forall digit l -> uint_bytes (toU l) = l.
Proof.
  induction 1 as [|c l Hc _ IH]; auto. apply digit_cases in Hc. cbn [In] in Hc.
  repeat (destruct Hc as [<-|Hc]; [cbn; now rewrite IH|]). destruct Hc.
Qed.
Lemma toU_norm : forall l, nat_part l -> unorm (toU l) = toU l.
Proof.
  intros l [|c ds Hc _]; auto. assert (c <> 48%N /\ digit c) as [Hz Hd] by (unfold digit19, digit in *; lia).
  apply digit_cases in Hd. cbn [In] in Hd. destruct Hd as [<-|Hd]; [contradiction|].
  repeat (destruct Hd as [<-|Hd]; [reflexivity|]). destruct Hd.
Qed.
Lemma uint_digits : forall u, Forall digit (uint_bytes u).
Proof. induction u; cbn; constructor; auto; unfold digit; lia. Qed.
Lemma norm_part : forall u, unorm u = u -> nat_part (uint_bytes u).
Proof.
  intros u H. destruct u; cbn [uint_bytes]; try (apply np_pos; [unfold digit19; lia|apply uint_digits]); [discriminate H|].
  assert (forall v x, nzhead v <> D0 x) as X by (induction v; intro x; cbn; auto; discriminate).
  unfold unorm in H. cbn [nzhead] in H. destruct (nzhead u) eqn:E; try discriminate H; [injection H as <-; apply np_zero|].
  exfalso. exact (X u _ E).
Qed.
Lemma index_decimal : forall i k, k = indexKey i <-> exists d, k = (91 :: d ++ [93])%N /\ isDecimal i d.
Proof.
  intros i k. unfold indexKey, appendUint. split.
  - intros ->. eexists. split; [reflexivity|]. split.
    + apply norm_part. rewrite <- (Unsigned.to_of (N.to_uint _)), Unsigned.of_to. reflexivity.
    + rewrite <- of_uint_val, Unsigned.of_to. lia.
  - intros (d & -> & HP & HV). cbn [app]. do 2 f_equal.
    assert (Forall digit d) as HD by now apply nat_part_digits.
    assert (N.of_uint (toU d) = Z.to_N (Z.of_nat i)) as E by (pose proof (of_uint_val (toU d)) as X; rewrite toU_bytes in X by auto; lia).
    rewrite <- E, Unsigned.to_of, toU_norm, toU_bytes; auto.
Qed.

(** ** Names *)
Lemma name_key : forall t x k, nameIs t x k -> keyOf t x = Ok k.
Proof.
  intros t x k [b|y us H].
  - cbn [keyOf]. unfold parseString. f_equal. unfold slice. cbn [length]. rewrite app_length. cbn [length].
    replace (S (length b + 1) - 1 - 1) with (length b) by lia. cbn [skipn]. now rewrite firstn_app, Nat.sub_diag, firstn_all, firstn_O, app_nil_r.
  - cbn [keyOf]. destruct (C05_parse_escaped_literal y us (repeat 0%N 64) H) as (s & al & ->). reflexivity.
Qed.
Lemma named_distinct : forall v, named v -> distinct v.
Proof.
  induction v as [t x|es w IH|ms w IH] using cst_ind'; intro HN; [exact I| |].
  - apply distinct_arr. inversion HN as [|es' w' HE|]; subst. apply Forall_forall. intros e He. rewrite Forall_forall in IH. apply (IH e He), HE, He.
  - apply distinct_obj. inversion HN as [| |ms' w' HK HU HV]; subst. rewrite Forall_forall in IH.
    split; [|apply Forall_forall; intros m Hm; apply (IH m Hm), HV, Hm].
    apply NoDup_nth_error. intros i j Hi E. rewrite map_length in Hi. rewrite !nth_error_map in E.
    destruct (nth_error ms i) as [m|] eqn:Ei; [|apply nth_error_None in Ei; lia].
    destruct (nth_error ms j) as [m'|] eqn:Ej; cbn in E; [|discriminate E]. injection E as E.
    destruct (HK m (nth_error_In _ _ Ei)) as (k & Hk). destruct (HK m' (nth_error_In _ _ Ej)) as (k' & Hk').
    rewrite (name_key _ _ _ Hk), (name_key _ _ _ Hk') in E. injection E as <-. eauto.
Qed.
Lemma arr_nth : forall es i k w, In (Ok k, w) (arrItems i es) <-> exists j e, nth_error es j = Some e /\ k = indexKey (i + j) /\ w = e_v e.
Proof.
  induction es as [|e es IH]; intros i k w; cbn [arrItems In]; split.
  - intros [].
  - intros ([|j] & e & E & _); discriminate E.
  - intros [E|H].
    + injection E as <- <-. exists 0, e. rewrite Nat.add_0_r. auto.
    + apply IH in H as (j & e' & E & -> & ->). exists (S j), e'. rewrite Nat.add_succ_r. auto.
  - intros ([|j] & e' & E & -> & ->); cbn in E.
    + injection E as <-. left. now rewrite Nat.add_0_r.
    + right. apply IH. exists j, e'. now rewrite Nat.add_succ_r.
Qed.
Lemma child_items : forall v k w, named v -> (child k v w <-> In (Ok k, w) (items v)).
Proof.
  intros v k w HN. split.
  - intros [ms w0 m k' Hm Hk|es w0 i e d Hi Hd]; cbn [items].
    + apply in_map_iff. exists m. now rewrite (name_key _ _ _ Hk).
    + apply arr_nth. exists i, e. split; auto. split; auto. apply index_decimal. eauto.
  - destruct v as [t x|es w0|ms w0]; cbn [items]; intro H.
    + destruct H.
    + apply arr_nth in H as (j & e & E & Ek & ->). apply index_decimal in Ek as (d & -> & Hd). econstructor; eauto.
    + apply in_map_iff in H as (m & E & Hm). inversion HN as [| |ms' w' HK _ _]; subst. destruct (HK m Hm) as (k' & Hk').
      injection E as E <-. rewrite (name_key _ _ _ Hk') in E. injection E as <-. now constructor.
Qed.
Lemma named_child : forall v k w, named v -> child k v w -> named w.
Proof.
  intros v k w HN HC. destruct HC as [ms w0 m k' Hm Hk|es w0 i e d Hi Hd].
  - inversion HN as [| |ms' w' HK HU HV]; subst. apply HV, Hm.
  - inversion HN as [|es' w' HE|]; subst. apply HE, (nth_error_In _ _ Hi).
Qed.
Lemma wf_child : forall v k w, wf_cst v -> child k v w -> wf_cst w.
Proof.
  intros v k w HN HC. destruct HC as [ms w0 m k' Hm Hk|es w0 i e d Hi Hd].
  - apply wf_obj in HN as [_ H]. rewrite Forall_forall in H. apply H in Hm. unfold wf_mem in Hm. tauto.
  - apply wf_arr in HN as [_ H]. rewrite Forall_forall in H. apply nth_error_In, H in Hi. unfold wf_elt in Hi. tauto.
Qed.

(** C19.  The fields of the filter semantics are those the text of the document
    names: escape sequences decoded, array elements under [[i]]. *)
Theorem C19_paths : forall p v w, wf_cst v -> named v -> (at_ p v = Some w <-> valueAt p v w).
Proof.
  induction p as [|k p IH]; intros v w HW HN.
  - cbn. split; [intro E; injection E as <-; constructor|intro H; now inversion H].
  - assert (forall o, docOk o v) as HD by (intro o; apply wf_docOk; auto using named_distinct).
    cbn [at_]. split.
    + destruct (findItem k (items v)) as [u|] eqn:E; [|discriminate]. apply PTrace.find_some in E. apply child_items in E; auto.
      intro H. apply IH in H; eauto using wf_child, named_child. econstructor; eauto.
    + intro H. inversion H as [|k' p' v' u x HC HV]; subst. pose proof HC as HI. apply child_items in HI; auto.
      assert (exists ks, map fst (items v) = map Ok ks /\ NoDup ks) as (ks & E & ND).
      { destruct v as [t y|es w0|ms w0].
        - exists []. split; [reflexivity|constructor].
        - exists (map indexKey (seq 0 (List.length es))). cbn [items]. rewrite arr_keys. split; auto.
          apply FinFun.Injective_map_NoDup; [intros a b; apply indexKey_inj|apply seq_NoDup].
        - pose proof (named_distinct _ HN) as HDi. apply distinct_obj in HDi as [HDi _]. cbn [items]. rewrite map_map. cbn [fst].
          inversion HN as [| |ms' w' HK _ _]; subst. clear -HK HDi.
          assert (exists ks, map (fun m => keyOf (m_kt m) (m_kx m)) ms = map Ok ks) as [ks E].
          { clear HDi. induction ms as [|m ms IH]; [exists []; auto|]. destruct IH as [ks E]; [intros; apply HK; now right|].
            destruct (HK m (or_introl eq_refl)) as (k & Hk). exists (k :: ks). cbn. now rewrite E, (name_key _ _ _ Hk). }
          exists ks. split; auto. rewrite E in HDi. eapply NoDup_map_inv; eauto. }
      rewrite (find_in ks _ _ _ E ND HI). apply IH; eauto using wf_child, named_child.
Qed.

(** C19, stated on the text of the names: a filter asking whether a field exists is
    true exactly when the text of the document names a value at that path. *)
Theorem C19_exists_named : forall o p w1 doc w2, supported o [XExists (XField 0 p)] ->
  ws w1 -> wf_cst doc -> ws w2 -> named doc -> benign [XExists (XField 0 p)] doc ->
  exists r, answers o [XExists (XField 0 p)] (doc_text w1 doc w2) r (fun _ => r) /\ (r = true <-> exists w, valueAt p doc w).
Proof.
  intros o p w1 doc w2 HS W1 WD W2 HN HB. set (e := XExists (XField 0 p)) in *. exists (truth o doc doc e).
  pose proof (match_truth o [e] w1 doc w2 HS W1 WD W2 HB) as X. cbn [existsb] in X. rewrite orb_false_r in X. split.
  - destruct X as (D & ED & X). exists D. split; auto. intros st Hs. destruct (X st Hs) as (f0 & Y). exists f0. intros fuel Hf.
    destruct (Y fuel Hf) as (s & E & Z). exists s. split; auto. intros i e' He Hn. rewrite (Z i e' He Hn).
    destruct i as [|i]; [now injection He as <-|destruct i; discriminate He].
  - subst e. cbn [truth]. unfold allPresent. cbn [frefs forallb]. rewrite andb_true_r. unfold present, fieldAt. cbn [fst snd Nat.eqb].
    destruct (at_ p doc) as [w|] eqn:E.
    + apply C19_paths in E; auto. split; eauto.
    + split; [discriminate|]. intros (w & Hw). apply C19_paths in Hw; auto. congruence.
Qed.

(** C49, through compiling and matching: the field at [p] is written as a string
    literal of contents [b]; the filter [p = "s"], and the same with the sides
    exchanged, is true exactly when [b] is [s]. *)
Definition eqConst (swap : bool) (p : list bytes) (s : bytes) : expr :=
  if swap then XCmp CEq (XValue (GString s)) (XField 0 p) else XCmp CEq (XField 0 p) (XValue (GString s)).
Theorem C49_match : forall swap o p s b t x w1 doc w2, supported o [eqConst swap p s] ->
  ws w1 -> wf_cst doc -> ws w2 -> named doc -> benign [eqConst swap p s] doc ->
  valueAt p doc (CLit t x) -> nameIs t x b -> all_bytes s -> all_bytes b ->
  exists r, answers o [eqConst swap p s] (doc_text w1 doc w2) r (fun _ => r) /\ (r = true <-> b = s).
Proof.
  intros swap o p s b t x w1 doc w2 HS W1 WD W2 HN HB HV HX Hs Hb. set (e := eqConst swap p s) in *. exists (truth o doc doc e).
  pose proof (match_truth o [e] w1 doc w2 HS W1 WD W2 HB) as X. cbn [existsb] in X. rewrite orb_false_r in X. split.
  - destruct X as (D & ED & X). exists D. split; auto. intros st Hst. destruct (X st Hst) as (f0 & Y). exists f0. intros fuel Hf.
    destruct (Y fuel Hf) as (s' & E & Z). exists s'. split; auto. intros i e' He Hn. rewrite (Z i e' He Hn).
    destruct i as [|i]; [now injection He as <-|destruct i; discriminate He].
  - apply C19_paths in HV; auto.
    assert (valOf o (CLit t x) = Ok (plain (VBinString b))) as EV.
    { pose proof (name_key _ _ _ HX) as K. destruct HX; cbn [valOf parseLit keyOf] in *; [now injection K as ->|].
      destruct (parseEscString _ _) as [[[b' s'] al]| | |]; try discriminate K. now injection K as ->. }
    destruct (C49_string_constant o s b Hs Hb) as (_ & _ & L & R).
    subst e. destruct swap; cbn [eqConst truth]; unfold cmpTruth, allPresent; cbn [frefs forallb oval]; unfold present, fieldAt; cbn [fst snd Nat.eqb];
      rewrite HV, EV; cbn [andb constRef newFastVal isString toJsonString fst cmpHolds]; [exact R|exact L].
Qed.

(** C23, on the text of names and strings: whitespace, the order of members and
    the use of escape sequences do not matter. *)
Lemma lit_name : forall o t x b, nameIs t x b -> valOf o (CLit t x) = Ok (plain (VBinString b)).
Proof.
  intros o t x b HX. pose proof (name_key _ _ _ HX) as K. destruct HX; cbn [valOf parseLit keyOf] in *; [now injection K as ->|].
  destruct (parseEscString _ _) as [[[b' s'] al]| | |]; try discriminate K. now injection K as ->.
Qed.
Lemma respelled_eqv : forall o v v', respelled v v' -> eqv o v v'.
Proof.
  intro o. induction v as [t x|es w IH|ms w IH] using cst_ind'; intros v' H; inversion H; subst.
  - now constructor.
  - constructor. now rewrite (lit_name o _ _ b), (lit_name o _ _ b).
  - constructor. match goal with HF : Forall2 _ es _ |- _ => clear -IH HF; induction HF; constructor; inversion IH; subst; auto end.
  - econstructor; [|eassumption]. match goal with HF : Forall2 _ ms _ |- _ => clear -IH HF; induction HF as [|m m' l l' [(k & A & B) R] HF IHF]; constructor; inversion IH; subst; auto end.
    split; auto. now rewrite (name_key _ _ _ A), (name_key _ _ _ B).
Qed.
Theorem C23_respelled : forall o es w1 doc w2 w1' doc' w2', supported o es ->
  ws w1 -> wf_cst doc -> ws w2 -> ws w1' -> wf_cst doc' -> ws w2' -> named doc' ->
  benign es doc -> respelled doc doc' -> Forall (scalar doc doc) es ->
  exists b f, answers o es (doc_text w1 doc w2) b f /\ answers o es (doc_text w1' doc' w2') b f.
Proof.
  intros o es w1 doc w2 w1' doc' w2' HS W1 WD W2 W1' WD' W2' HN HB HR HSc.
  apply C23_layout_and_order; auto using named_distinct, respelled_eqv.
Qed.

(** ** Cases meeting the hypotheses: the name [a] written as an escape, the string
    [xy] with its first character as an escape. *)
Definition exN : cst := CObj [Mem [] [] TString (s2b """b""") [] [] (lit "1"); Mem [] [] TEscString (s2b """\u0061""") [] [] (CLit TEscString (s2b """\u0078y"""))] [].
Definition exP : cst := obj [("a", str "xy"); ("b", lit "1")]%string.
Lemma ex_a : nameIs TEscString (s2b """\u0061""") (s2b "a").
Proof.
  apply (ni_esc [92; 117; 48; 48; 54; 49]%N [97]%N). apply (sps_cons [92; 117; 48; 48; 54; 49]%N 97%N [] []); [|constructor].
  apply sp_ucode; [|unfold SUnicode.scalar; lia].
  apply (uc_intro 48 48 54 49 0 0 6 1); [apply (hv_digit 0)|apply (hv_digit 0)|apply (hv_digit 6)|apply (hv_digit 1)]; lia.
Qed.
Lemma ex_xy : nameIs TEscString (s2b """\u0078y""") (s2b "xy").
Proof.
  apply (ni_esc [92; 117; 48; 48; 55; 56; 121]%N [120; 121]%N). apply (sps_cons [92; 117; 48; 48; 55; 56]%N 120%N [121]%N [121]%N).
  - apply sp_ucode; [|unfold SUnicode.scalar; lia].
    apply (uc_intro 48 48 55 56 0 0 7 8); [apply (hv_digit 0)|apply (hv_digit 0)|apply (hv_digit 7)|apply (hv_digit 8)]; lia.
  - apply (sps_cons [121]%N 121%N [] []); [|constructor]. apply (sp_literal 121%N); unfold SUnicode.scalar; lia.
Qed.
Lemma ex_b : nameIs TString (s2b """b""") (s2b "b").
Proof. exact (ni_plain (s2b "b")). Qed.
Lemma name_fun : forall t x k k', nameIs t x k -> nameIs t x k' -> k = k'.
Proof. intros t x k k' A B. apply name_key in A, B. congruence. Qed.
Example exN_named : wf_cst exN /\ named exN.
Proof.
  split; [apply wfb_ok; vm_compute; reflexivity|]. constructor.
  - intros m [<-|[<-|[]]]; eexists; [exact ex_b|exact ex_a].
  - intros [|[|i]] [|[|j]] m m' k Hi Hj A B; auto; try (destruct i; discriminate Hi); try (destruct j; discriminate Hj);
      injection Hi as <-; injection Hj as <-; cbn [m_kt m_kx] in A, B.
    + apply (name_fun _ _ _ _ ex_b) in A. apply (name_fun _ _ _ _ ex_a) in B. subst k. discriminate B.
    + apply (name_fun _ _ _ _ ex_a) in A. apply (name_fun _ _ _ _ ex_b) in B. subst k. discriminate B.
  - intros m [<-|[<-|[]]]; constructor.
Qed.
Example exN_value : valueAt [s2b "a"] exN (CLit TEscString (s2b """\u0078y""")).
Proof. econstructor; [|constructor]. apply (ch_mem _ _ (Mem [] [] TEscString (s2b """\u0061""") [] [] (CLit TEscString (s2b """\u0078y""")))); [now right; left|exact ex_a]. Qed.
Example C49_match_case : forall o, let e := eqConst false [s2b "a"] (s2b "xy") in
  supported o [e] /\ benign [e] exN /\ supported o [eqConst true [s2b "a"] (s2b "xy")] /\ nameIs TEscString (s2b """\u0078y""") (s2b "xy").
Proof.
  intros o e. split; [apply supportedb_ok; vm_compute; reflexivity|]. split; [apply benignb_ok; vm_compute; reflexivity|].
  split; [apply supportedb_ok; vm_compute; reflexivity|]. exact ex_xy.
Qed.
Example C23_respelled_case : respelled exP exN /\ benign [eqConst false [s2b "a"] (s2b "xy")] exP /\ Forall (scalar exP exP) [eqConst false [s2b "a"] (s2b "xy")].
Proof.
  split; [|split; [apply benignb_ok; vm_compute; reflexivity|]].
  - apply (rs_obj _ _ [Mem [] [] TEscString (s2b """\u0061""") [] [] (CLit TEscString (s2b """\u0078y""")); Mem [] [] TString (s2b """b""") [] [] (lit "1")]).
    + constructor; [|constructor; [|constructor]].
      * split; [exists (s2b "a"); split; [exact (ni_plain (s2b "a"))|exact ex_a]|]. exact (rs_str _ _ _ _ _ (ni_plain (s2b "xy")) ex_xy).
      * split; [exists (s2b "b"); split; exact ex_b|apply rs_lit].
    + apply perm_swap.
  - constructor; [|constructor]. intros r q [E|[]]. injection E as <- <-. vm_compute. exact I.
Qed.
Print Assumptions C19_paths.
Print Assumptions C19_exists_named.
Print Assumptions C23_respelled.
Print Assumptions C49_match.
