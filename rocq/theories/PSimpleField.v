(** Reading back a path. *)
From Coq Require Import String.
From Verif Require Import Base MTokenizer MLit MFastVal MMath MBinTree SEvents MExpr MExprJson MText MSimple SSimple PSimpleWords.
From Coq Require Import List NArith ZArith Arith Lia Bool.
Import ListNotations.
Open Scope nat_scope.

Lemma eqb_without : forall c l x, ~ In c l -> In x l -> N.eqb c x = false.
Proof. intros c l x H HI. apply N.eqb_neq. intros ->. auto. Qed.
Lemma loop_plain : forall tok n rest pos s, f_mode s = FPlain0 -> without n [46; 96; 91]%N ->
  fieldLoop tok (n ++ rest) pos s = fieldLoop tok rest (pos + length n) s.
Proof.
  induction n as [|c n IH]; intros rest pos s HM H; [cbn [app length]; now rewrite Nat.add_0_r|].
  inversion H as [|? ? Hc Hn]; subst. cbn [app fieldLoop]. rewrite HM.
  rewrite !(eqb_without c [46; 96; 91]%N) by (auto; cbn; tauto).
  rewrite IH by auto. f_equal. cbn [length]. lia.
Qed.
Lemma loop_tick : forall tok n rest pos s, f_mode s = FTick -> without n [96]%N ->
  fieldLoop tok (n ++ rest) pos s = fieldLoop tok rest (pos + length n) s.
Proof.
  induction n as [|c n IH]; intros rest pos s HM H; [cbn [app length]; now rewrite Nat.add_0_r|].
  inversion H as [|? ? Hc Hn]; subst. cbn [app fieldLoop]. rewrite HM.
  rewrite (eqb_without c [96]%N) by (auto; cbn; tauto). rewrite IH by auto. f_equal. cbn [length]. lia.
Qed.
Lemma loop_digits : forall tok ds rest pos s, f_mode s = FIndex -> f_begin s < pos -> Forall digit ds -> (pos = S (f_begin s) -> hd 0%N ds <> 48%N) ->
  fieldLoop tok (ds ++ rest) pos s = fieldLoop tok rest (pos + length ds) s.
Proof.
  induction ds as [|c ds IH]; intros rest pos s HM HB H H0; [cbn [app length]; now rewrite Nat.add_0_r|].
  inversion H as [|? ? Hc Hn]; subst. cbn [app fieldLoop]. rewrite HM.
  assert (pos =? f_begin s = false) as -> by (apply Nat.eqb_neq; lia).
  assert ((pos =? S (f_begin s)) && N.eqb c 48 = false) as ->.
  { destruct (pos =? S (f_begin s)) eqn:E; auto. apply Nat.eqb_eq in E. apply N.eqb_neq. apply H0. auto. }
  assert (isDigit c = true) as -> by now apply isDigit_spec. cbn [negb andb].
  assert (N.eqb c 93 = false) as -> by (apply N.eqb_neq; unfold digit in Hc; lia).
  rewrite IH; auto; [f_equal; cbn [length]; lia|intros; lia].
Qed.

(** Everything up to [pos] would be [acc] if the word ended there. *)
Definition flushed (tok : bytes) (q : fstate) (pos : nat) (acc : list bytes) : Prop :=
  f_mode q = FPlain0 /\ f_unf q = [] /\ fAppend q (slice tok (f_begin q) pos) = acc.
Definition begins (rest : bytes) (l : list N) : Prop := match rest with [] => True | c :: _ => In c l end.
Definition start (pos : nat) (acc : list bytes) : fstate := {| f_mode := FPlain0; f_begin := pos; f_skip := false; f_unf := []; f_out := acc |}.

Lemma seg_loop : forall s pre rest acc, segOk s -> begins rest [46; 91]%N ->
  let tok := pre ++ segText s ++ rest in
  exists q, fieldLoop tok (segText s ++ rest) (length pre) (start (length pre) acc) = fieldLoop tok rest (length pre + length (segText s)) q
    /\ flushed tok q (length pre + length (segText s)) (acc ++ [segName s]).
Proof.
  intros [n|n] pre rest acc [Hn HW] HR tok; cbn [segText segName] in *.
  - exists (start (length pre) acc). split; [now apply loop_plain|]. split; [reflexivity|]. split; [reflexivity|].
    unfold fAppend. cbn [start f_skip f_begin f_out]. unfold tok. now rewrite slice_app.
  - set (T := pre ++ ([96%N] ++ n ++ [96%N]) ++ rest) in tok.
    exists {| f_mode := FPlain0; f_begin := S (length pre); f_skip := true; f_unf := []; f_out := acc ++ [n] |}. split; [|repeat split].
    assert (slice T (S (length pre)) (S (length pre) + length n) = n) as SL.
    { unfold T. replace (S (length pre)) with (length (pre ++ [96%N])) by (rewrite app_length; cbn; lia).
      replace (pre ++ ([96%N] ++ n ++ [96%N]) ++ rest) with ((pre ++ [96%N]) ++ n ++ [96%N] ++ rest) by (now rewrite <- !app_assoc). apply slice_app. }
    unfold tok. rewrite <- !app_assoc. cbn [app].
    match goal with |- fieldLoop ?t (96%N :: ?r) ?p ?s = _ => replace (fieldLoop t (96%N :: r) p s)
      with (fieldLoop t r (S p) {| f_mode := FTick; f_begin := S p; f_skip := false; f_unf := []; f_out := acc |}) by reflexivity end.
    rewrite loop_tick by (auto; reflexivity). cbn [app fieldLoop f_mode]. rewrite N.eqb_refl. cbn [f_begin].
    assert (S (length pre) =? S (length pre) + length n = false) as -> by (apply Nat.eqb_neq; destruct n; [contradiction|cbn; lia]).
    cbn [f_unf f_out f_skip]. unfold T in SL |- *. rewrite <- !app_assoc in *. cbn [app] in *. rewrite SL.
    assert (match rest with [] => true | d :: _ => if N.eqb d 46 || N.eqb d 91 then true else false end = true) as ->.
    { destruct rest as [|d r]; auto. cbn in HR. destruct HR as [<- |[<- |[]]]; reflexivity. }
    f_equal. cbn [length]. rewrite app_length. cbn. lia.
Qed.
Lemma dot_loop : forall tok rest pos q acc, flushed tok q pos acc -> fieldLoop tok (46%N :: rest) pos q = fieldLoop tok rest (S pos) (start (S pos) acc).
Proof. intros tok rest pos q acc (H1 & H2 & H3). cbn [fieldLoop]. rewrite H1. cbn. now rewrite H2, H3. Qed.
Lemma idx_loop : forall d pre rest q acc, idxOk d -> begins rest [91]%N ->
  let tok := pre ++ idxText d ++ rest in flushed tok q (length pre) acc ->
  exists q', fieldLoop tok (idxText d ++ rest) (length pre) q = fieldLoop tok rest (length pre + length (idxText d)) q'
    /\ flushed tok q' (length pre + length (idxText d)) (acc ++ [idxText d]).
Proof.
  intros d pre rest q acc (Hn & HD & H0) HR tok (H1 & H2 & H3).
  exists {| f_mode := FPlain0; f_begin := length pre; f_skip := true; f_unf := []; f_out := acc ++ [idxText d] |}. split; [|repeat split].
  assert (slice tok (length pre) (length pre + length (idxText d)) = idxText d) as SL by apply slice_app.
  unfold idxText at 1. rewrite <- !app_assoc. cbn [app].
  match goal with |- fieldLoop ?t (91%N :: ?r) ?p ?s = _ => assert (fieldLoop t (91%N :: r) p s
      = fieldLoop t r (S p) {| f_mode := FIndex; f_begin := p; f_skip := false; f_unf := []; f_out := acc |}) as -> end.
  { cbn [fieldLoop]. rewrite H1. cbn. now rewrite H2, H3. }
  rewrite loop_digits; auto. cbn [fieldLoop f_mode f_begin].
  assert (S (length pre) + length d =? length pre = false) as -> by (apply Nat.eqb_neq; lia).
  assert (length d <> 0) as HL by (destruct d; [contradiction|cbn; lia]).
  assert (S (length pre) + length d =? S (length pre) = false) as -> by (apply Nat.eqb_neq; lia).
  cbn [andb negb N.eqb Pos.eqb orb isDigit]. change (negb (isDigit 93) && negb true) with false. cbn [f_unf f_out f_skip].
  assert (match rest with [] => true | d :: _ => N.eqb d 91 end = true) as ->.
  { destruct rest as [|x r]; auto. cbn in HR. destruct HR as [<- |[]]. reflexivity. }
  unfold fAppend. cbn [f_skip f_out].
  assert (S (S (length pre) + length d) = length pre + length (idxText d)) as -> by (unfold idxText; rewrite !app_length; cbn; lia).
  now rewrite SL.
Qed.
Lemma idxs_loop : forall ds pre q acc, Forall idxOk ds ->
  let tok := pre ++ concat (map idxText ds) in flushed tok q (length pre) acc ->
  exists q', fieldLoop tok (concat (map idxText ds)) (length pre) q = Some q' /\ flushed tok q' (length tok) (acc ++ map idxText ds).
Proof.
  induction ds as [|d ds IH]; intros pre q acc H tok HF.
  - exists q. split; [reflexivity|]. unfold tok in *. cbn [map concat] in *. rewrite !app_nil_r in *. exact HF.
  - inversion H as [|? ? Hd Hds]; subst. unfold tok in *. cbn [map concat] in *.
    destruct (idx_loop d pre (concat (map idxText ds)) q acc) as (q1 & E1 & F1); auto.
    { destruct ds; [exact I|]. cbn. now left. }
    rewrite E1. destruct (IH (pre ++ idxText d) q1 (acc ++ [idxText d])) as (q2 & E2 & F2); auto.
    { rewrite <- app_assoc, app_length. exact F1. }
    rewrite <- app_assoc in E2. rewrite app_length in E2. exists q2. split; [exact E2|].
    rewrite <- !app_assoc in F2. exact F2.
Qed.
Lemma segs_loop : forall segs idxs pre acc, segs <> [] -> Forall segOk segs -> Forall idxOk idxs ->
  let body := joinBy [46%N] (map segText segs) ++ concat (map idxText idxs) in
  let tok := pre ++ body in
  exists q', fieldLoop tok body (length pre) (start (length pre) acc) = Some q'
    /\ flushed tok q' (length tok) (acc ++ map segName segs ++ map idxText idxs).
Proof.
  induction segs as [|s segs IH]; intros idxs pre acc Hne HS HI body tok; [contradiction|].
  inversion HS as [|? ? Hs Hss]; subst. destruct segs as [|s2 segs].
  - unfold tok, body. cbn [map joinBy]. destruct (seg_loop s pre (concat (map idxText idxs)) acc Hs) as (q & E & F).
    { destruct idxs; [exact I|]. cbn. auto. }
    rewrite E. destruct (idxs_loop idxs (pre ++ segText s) q (acc ++ [segName s]) HI) as (q2 & E2 & F2).
    { rewrite <- app_assoc, app_length. exact F. }
    rewrite <- app_assoc in E2. rewrite app_length in E2. exists q2. split; [exact E2|]. rewrite <- !app_assoc in F2. exact F2.
  - unfold tok, body. change (joinBy [46%N] (map segText (s :: s2 :: segs))) with (segText s ++ [46%N] ++ joinBy [46%N] (map segText (s2 :: segs))).
    rewrite <- !app_assoc. set (R := joinBy [46%N] (map segText (s2 :: segs)) ++ concat (map idxText idxs)).
    destruct (seg_loop s pre ([46%N] ++ R) acc Hs) as (q & E & F); [cbn; auto|]. rewrite E. cbn [app]. rewrite (dot_loop _ _ _ _ _ F).
    destruct (IH idxs (pre ++ segText s ++ [46%N]) (acc ++ [segName s])) as (q2 & E2 & F2); auto; [discriminate|].
    fold R in E2, F2. rewrite <- !app_assoc in E2, F2. rewrite !app_length in E2. cbn [length] in E2.
    replace (length pre + (length (segText s) + 1)) with (S (length pre + length (segText s))) in E2 by lia.
    exists q2. split; [exact E2|]. rewrite <- (app_assoc acc [segName s]) in F2. exact F2.
Qed.
Theorem parseField_path : forall p rest, sp_segs p <> [] -> Forall segOk (sp_segs p) -> Forall idxOk (sp_idx p) -> pathText p <> [] ->
  parseField (pathText p :: rest) = Some (pathOf p, rest).
Proof.
  intros p rest H1 H2 H3 H4. destruct (segs_loop (sp_segs p) (sp_idx p) [] [] H1 H2 H3) as (q & E & F1 & F2 & F3).
  cbn [app length] in *. fold (pathText p) in *. unfold parseField. destruct (pathText p) eqn:ET; [contradiction|]. rewrite <- ET in *.
  cbn [fieldWords f_mode f_skip f_unf f_out]. unfold start in E. rewrite E, F1. now rewrite F3.
Qed.
