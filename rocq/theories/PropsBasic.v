(* Properties C01-C07: span, spanl, cat_, a_. *)
From Coq Require Import String List Arith ZArith Lia Bool Reals Lra.
From Verif Require Import Num PyBase NdArray NdLemmas Basic BasicProofs.
Import ListNotations.

(* axis number z (negative counts from the end) names position k of n *)
Definition axis_is (n : nat) (z : Z) (k : nat) : Prop :=
  k < n /\ (z = Z.of_nat k \/ z = (Z.of_nat k - Z.of_nat n)%Z).
Lemma axis_is_index n z k : axis_is n z k -> py_index n z = Some k.
Proof.
  intros [H [-> | ->]]; unfold py_index.
  - replace (Z.of_nat k <? 0)%Z with false by (symmetry; apply Z.ltb_ge; lia).
    replace (Z.of_nat k <? Z.of_nat n)%Z with true by (symmetry; apply Z.ltb_lt; lia).
    rewrite Nat2Z.id. reflexivity.
  - replace (Z.of_nat k - Z.of_nat n <? 0)%Z with true by (symmetry; apply Z.ltb_lt; lia).
    replace (Z.of_nat n + (Z.of_nat k - Z.of_nat n) <? 0)%Z with false by (symmetry; apply Z.ltb_ge; lia).
    f_equal. lia.
Qed.

(* --- C01: span ----------------------------------------------------------- *)
(* In every arithmetic (no law assumed) the last slice is stop (+0). *)
Theorem C01_span_last_exact {K} {NK : Num K} (start stop : nd K) num axis k S0 :
  2 <= num -> bshape (shp start) (shp stop) = Some S0 -> axis_is (S (length S0)) axis k ->
  exists r, span start stop num axis = Ok r /\ shp r = insert_at k num S0 /\
    forall idx, inb idx S0 ->
      get r (insert_at k 0 idx) = nadd (bget start idx) n0 /\
      get r (insert_at k (num - 1) idx) = nadd (bget stop idx) n0.
Proof.
  intros Hn HS Hk. destruct num as [|m]; [lia|].
  destruct (span_ok start stop m axis k S0 HS (axis_is_index _ _ _ Hk)) as (r & E & Sr & G).
  exists r. split; [exact E|]. split; [exact Sr|]. intros idx Hi. split.
  - rewrite G by (auto; lia). destruct m; [lia|]. reflexivity.
  - replace (S m - 1) with m by lia. rewrite G by (auto; lia). rewrite Nat.eqb_refl. reflexivity.
Qed.

Local Open Scope R_scope.
Theorem C01_span_equal_steps (start stop : nd R) num axis k S0 :
  (2 <= num)%nat -> bshape (shp start) (shp stop) = Some S0 -> axis_is (S (length S0)) axis k ->
  exists r, span start stop num axis = Ok r /\ shp r = insert_at k num S0 /\
    forall idx, inb idx S0 ->
      get r (insert_at k 0%nat idx) = bget start idx /\
      get r (insert_at k (num - 1)%nat idx) = bget stop idx /\
      forall j, (S j < num)%nat ->
        get r (insert_at k (S j) idx) - get r (insert_at k j idx)
        = (bget stop idx - bget start idx) / (INR num - 1).
Proof.
  intros Hn HS Hk. destruct num as [|m]; [lia|].
  destruct (span_ok start stop m axis k S0 HS (axis_is_index _ _ _ Hk)) as (r & E & Sr & G).
  exists r. split; [exact E|]. split; [exact Sr|]. intros idx Hi.
  assert (Hm : INR m <> 0) by (apply not_0_INR; lia).
  assert (G' : forall i, (i < S m)%nat ->
     get r (insert_at k i idx) = bget start idx + INR i * ((bget stop idx - bget start idx) / INR m)).
  { intros i Him. rewrite G by auto. unfold bz. numR. rewrite ?Rplus_0_r, ?nofnat_R.
    destruct (Nat.eqb_spec i m) as [->|]; [field; auto|].
    destruct i; [cbn [INR]; lra|]. rewrite cums_const. reflexivity. }
  split; [|split].
  - rewrite G' by lia. cbn [INR]. lra.
  - rewrite G' by lia. replace (S m - 1)%nat with m by lia. field. auto.
  - intros j Hj. rewrite !G' by lia. rewrite (S_INR j), (S_INR m).
    replace (INR m + 1 - 1) with (INR m) by lra. field. auto.
Qed.
(* start scalar 1, stop = [2, 4, 7], 3 points on a new last axis *)
Example C01_case :
  let start := scalar 1 in let stop := vec 0 [2; 4; 7] in
  exists r, span start stop 3 (-1)%Z = Ok r /\ shp r = [3; 3]%nat /\ get r [2; 1]%nat = 4.
Proof.
  intros start stop.
  destruct (C01_span_equal_steps start stop 3 (-1)%Z 1 [3%nat]) as (r & E & Sr & G);
    [lia|reflexivity|split; [cbn; lia|right; reflexivity]|].
  exists r. split; [exact E|]. split; [exact Sr|].
  destruct (G [2%nat]) as (G0 & G1 & G2); [repeat constructor|].
  specialize (G2 0%nat ltac:(lia)). cbn in G0, G1, G2. unfold bget in *. cbn in *. lra.
Qed.

(* --- C02: span with one point -------------------------------------------- *)
Theorem C02_span_one_refuted :
  (forall start stop axis k S0, bshape (shp start) (shp stop) = Some S0 ->
     axis_is (S (length S0)) axis k ->
     exists r, span (K:=R) start stop 1 axis = Ok r /\ shp r = insert_at k 1%nat S0 /\
       forall idx, inb idx S0 -> get r (insert_at k 0%nat idx) = bget stop idx) /\
  (exists r, span (scalar 0) (scalar 1) 1 0%Z = Ok r /\ get r [0%nat] <> 0).
Proof.
  assert (M : forall start stop axis k S0, bshape (shp start) (shp stop) = Some S0 ->
     axis_is (S (length S0)) axis k ->
     exists r, span (K:=R) start stop 1 axis = Ok r /\ shp r = insert_at k 1%nat S0 /\
       forall idx, inb idx S0 -> get r (insert_at k 0%nat idx) = bget stop idx).
  { intros start stop axis k S0 HS Hk.
    destruct (span_ok start stop 0 axis k S0 HS (axis_is_index _ _ _ Hk)) as (r & E & Sr & G).
    exists r. split; [exact E|]. split; [exact Sr|]. intros idx Hi.
    rewrite G by (auto; lia). cbn [Nat.eqb]. unfold bz. numR. lra. }
  split; [exact M|].
  destruct (M (scalar 0) (scalar 1) 0%Z 0%nat []) as (r & E & _ & G);
    [reflexivity|split; [cbn; lia|left; reflexivity]|].
  exists r. split; [exact E|]. specialize (G [] (Forall2_nil _)). cbn in G. rewrite G. lra.
Qed.
(* the documented end conditions hold for all num >= 2, and for num = 1 when start = stop *)
Theorem C02_span_ends_partial (start stop : nd R) num axis k S0 :
  (1 <= num)%nat -> bshape (shp start) (shp stop) = Some S0 -> axis_is (S (length S0)) axis k ->
  (num = 1%nat -> forall idx, inb idx S0 -> bget start idx = bget stop idx) ->
  exists r, span start stop num axis = Ok r /\ shp r = insert_at k num S0 /\
    forall idx, inb idx S0 ->
      get r (insert_at k 0%nat idx) = bget start idx /\
      get r (insert_at k (num - 1)%nat idx) = bget stop idx.
Proof.
  intros Hn HS Hk H1. destruct (Nat.eq_dec num 1) as [->|].
  - destruct C02_span_one_refuted as [M _].
    destruct (M start stop axis k S0 HS Hk) as (r & E & Sr & G).
    exists r. split; [exact E|]. split; [exact Sr|]. intros idx Hi. cbn [Nat.sub].
    rewrite G by auto. split; auto. symmetry; auto.
  - destruct (C01_span_equal_steps start stop num axis k S0) as (r & E & Sr & G); auto; [lia|].
    exists r. split; [exact E|]. split; [exact Sr|]. intros idx Hi. destruct (G idx Hi) as (A & B & _). auto.
Qed.
Theorem C02_span_none start stop axis : span (K:=R) start stop 0 axis = Err ValueError.
Proof. apply span_zero. Qed.

(* --- C03, C04: spanl ------------------------------------------------------- *)
Lemma Rsgn_abs a : a <> 0 -> Rsgn a * Rabs a = a.
Proof.
  intros H. unfold Rsgn. destruct (Rltb_spec a 0); [rewrite Rabs_left; lra|].
  destruct (Rltb_spec 0 a); [rewrite Rabs_right; lra|lra].
Qed.
Lemma Rsgn_sqr a : a <> 0 -> Rsgn a * Rsgn a = 1.
Proof.
  intros H. unfold Rsgn. destruct (Rltb_spec a 0); [lra|].
  destruct (Rltb_spec 0 a); [lra|lra].
Qed.
Theorem C03_spanl (start stop : nd R) num axis k S0 :
  (2 <= num)%nat -> bshape (shp start) (shp stop) = Some S0 -> axis_is (S (length S0)) axis k ->
  (axis = 0%Z \/ (length (shp stop) <= length (shp start))%nat) ->
  (forall idx, inb idx S0 -> 0 < bget start idx * bget stop idx) ->
  exists r, spanl start stop num axis = Ok r /\ shp r = insert_at k num S0 /\
    forall idx, inb idx S0 ->
      get r (insert_at k 0%nat idx) = bget start idx /\
      get r (insert_at k (num - 1)%nat idx) = bget stop idx /\
      exists ratio, 0 < ratio /\ forall j, (S j < num)%nat ->
        get r (insert_at k (S j) idx) = ratio * get r (insert_at k j idx).
Proof.
  intros Hn HS Hk Hax Hpos. destruct num as [|m]; [lia|].
  assert (Hax' : axis = 0%Z \/ length (shp start) = length S0).
  { destruct Hax as [H|H]; [auto|right]. apply bshape_some_iff in HS as [HS _]. lia. }
  destruct (spanl_ok start stop m axis k S0 HS (axis_is_index _ _ _ Hk) Hax' Hpos) as (r & E & Sr & G); [lia|].
  exists r. split; [exact E|]. split; [exact Sr|]. intros idx Hi.
  specialize (Hpos idx Hi).
  set (a := bget start idx) in *. set (b := bget stop idx) in *.
  assert (Ha : a <> 0) by (intros ->; lra).
  assert (Hb : 0 < Rsgn a * b) by (apply Rsgn_mul_pos; auto).
  assert (Hm : INR m <> 0) by (apply not_0_INR; lia).
  split; [|split].
  - rewrite G by (auto; lia). fold a b. unfold spanl_log. cbn [INR].
    rewrite Rmult_0_l, Rplus_0_r, exp_ln by (apply Rabs_pos_lt; auto). apply Rsgn_abs; auto.
  - rewrite G by (auto; lia). fold a b. unfold spanl_log. replace (S m - 1)%nat with m by lia.
    replace (ln (Rabs a) + INR m * ((ln (Rsgn a * b) - ln (Rabs a)) / INR m))
      with (ln (Rsgn a * b)) by (field; auto).
    rewrite exp_ln by auto. rewrite <- Rmult_assoc, Rsgn_sqr by auto. lra.
  - exists (exp ((ln (Rsgn a * b) - ln (Rabs a)) / INR m)). split; [apply exp_pos|].
    intros j Hj. rewrite !G by (auto; lia). fold a b. unfold spanl_log.
    rewrite S_INR, Rmult_plus_distr_r, Rmult_1_l, <- Rplus_assoc, exp_plus. ring.
Qed.
Theorem C03_spanl_rejects (start stop : nd R) num axis S0 idx :
  bshape (shp start) (shp stop) = Some S0 -> inb idx S0 -> bget start idx * bget stop idx <= 0 ->
  spanl start stop num axis = Err ValueError.
Proof. apply spanl_err. Qed.
Example C03_case :
  let start := vec 0 [-1; 1] in let stop := vec 0 [-4; 16] in
  exists r, spanl start stop 3 0%Z = Ok r /\ get r [1; 0]%nat = -2 /\ get r [1; 1]%nat = 4.
Proof.
  intros start stop.
  assert (P : forall idx, inb idx [2%nat] -> 0 < bget start idx * bget stop idx).
  { intros idx Hi. inv Hi. inv H3. destruct x as [|[|x]]; [| |lia]; unfold bget; cbn; lra. }
  destruct (C03_spanl start stop 3 0%Z 0 [2%nat]) as (r & E & Sr & G);
    [lia|reflexivity|split; [cbn; lia|left; reflexivity]|left; reflexivity|exact P|].
  exists r. split; [exact E|].
  destruct (spanl_ok start stop 2 0%Z 0 [2%nat]) as (r' & E' & _ & G');
    [reflexivity|reflexivity|left; reflexivity|exact P|lia|].
  assert (r' = r) by congruence. subst r'.
  destruct (G [0%nat]) as (A0 & A2 & ra & Hra & Ra); [repeat constructor|].
  destruct (G [1%nat]) as (B0 & B2 & rb & Hrb & Rb); [repeat constructor|].
  pose proof (Ra 0%nat ltac:(lia)) as R1. pose proof (Ra 1%nat ltac:(lia)) as R2.
  pose proof (Rb 0%nat ltac:(lia)) as R3. pose proof (Rb 1%nat ltac:(lia)) as R4.
  unfold bget in *. cbn in *. split.
  - assert (ra * ra = 4) by nra. assert (ra = 2) by nra. nra.
  - assert (rb * rb = 16) by nra. assert (rb = 4) by nra. nra.
Qed.

Theorem C04_spanl_axis_partial (start stop : nd R) num axis k S0 :
  (2 <= num)%nat -> bshape (shp start) (shp stop) = Some S0 -> axis_is (S (length S0)) axis k ->
  (axis = 0%Z \/ (length (shp stop) <= length (shp start))%nat) ->
  (forall idx, inb idx S0 -> 0 < bget start idx * bget stop idx) ->
  exists r r', span start stop num axis = Ok r /\ spanl start stop num axis = Ok r' /\ shp r' = shp r.
Proof.
  intros Hn HS Hk Hax Hpos.
  destruct (C03_spanl start stop num axis k S0) as (r' & E' & S' & _); auto.
  destruct (C01_span_equal_steps start stop num axis k S0) as (r & E & Sr & _); auto.
  exists r, r'. rewrite S', Sr. auto.
Qed.
(* a scalar start and a vector stop: axis=-1 puts the new axis first, axis=1 with
   start of lower rank fails *)
Theorem C04_spanl_axis_refuted :
  (exists r r', span (scalar 1) (full [3%nat] 1) 2 (-1)%Z = Ok r /\ shp r = [3; 2]%nat /\
     spanl (scalar 1) (full [3%nat] 1) 2 (-1)%Z = Ok r' /\ shp r' = [2; 3]%nat) /\
  (exists r, span (full [3%nat] 1) (full [2; 3]%nat 1) 2 1%Z = Ok r /\ shp r = [2; 2; 3]%nat /\
     spanl (full [3%nat] 1) (full [2; 3]%nat 1) 2 1%Z = Err ValueError).
Proof.
  assert (S1 : Rsgn 1 * 1 = 1).
  { unfold Rsgn. destruct (Rltb_spec 1 0); [lra|]. destruct (Rltb_spec 0 1); lra. }
  assert (A1 : forall s s', nd_any (fun x => Rleb x 0) (Nd s (fun idx : list nat =>
             bget (nd_map Rsgn (full s' 1)) idx * bget (full s 1) idx)) = false).
  { intros. apply nd_any_false. intros idx _. cbn [get].
    change (bget (nd_map Rsgn (full s' 1)) idx) with (Rsgn 1).
    change (bget (full s 1) idx) with 1. rewrite S1.
    destruct (Rleb_spec 1 0); [lra|reflexivity]. }
  split.
  - destruct (C01_span_equal_steps (scalar 1) (full [3%nat] 1) 2 (-1)%Z 1 [3%nat]) as (r & E & Sr & _);
      [lia|reflexivity|split; [cbn; lia|right; reflexivity]|].
    unfold spanl. unfold nd_map2 at 1. cbn [nd_map shp scalar full].
    rewrite bshape_nil_l. cbn [bind].
    match goal with |- context [nd_any ?f ?a] =>
      replace (nd_any f a) with false by exact (eq_sym (A1 [3%nat] [])) end.
    cbn [Z.eqb Z.ltb Z.compare length Z.of_nat Z.add Z.opp Z.pos_sub]. unfold py_take, py_drop, zclip, reshape.
    cbn [Z.ltb Z.compare Z.to_nat length firstn skipn app size fold_right Nat.mul Nat.add Nat.eqb bind shp nd_map scalar full].
    match goal with |- context [span ?a ?b 2 0%Z] =>
      destruct (C01_span_equal_steps a b 2 0%Z 0 [3%nat]) as (e & E' & Se & _);
        [lia|reflexivity|split; [cbn; lia|left; reflexivity]|] end.
    rewrite E'. cbn [bind]. unfold nd_map2. cbn [shp nd_map]. rewrite Se.
    exists r. eexists. split; [exact E|]. split; [exact Sr|]. split; reflexivity.
  - destruct (C01_span_equal_steps (full [3%nat] 1) (full [2; 3]%nat 1) 2 1%Z 1 [2; 3]%nat) as (r & E & Sr & _);
      [lia|reflexivity|split; [cbn; lia|left; reflexivity]|].
    exists r. split; [exact E|]. split; [exact Sr|].
    unfold spanl. unfold nd_map2 at 1. cbn [nd_map shp full].
    change (bshape [3%nat] [2; 3]%nat) with (Some [2; 3]%nat). cbn [bind].
    match goal with |- context [nd_any ?f ?a] =>
      replace (nd_any f a) with false by exact (eq_sym (A1 [2; 3]%nat [3%nat])) end.
    cbn [Z.eqb Z.ltb Z.compare]. unfold py_take, py_drop, zclip, reshape.
    change (Z.to_nat 1) with 1%nat.
    cbn [Z.ltb Z.compare length firstn skipn app size fold_right Nat.mul Nat.add Nat.eqb bind shp nd_map scalar full].
    match goal with |- context [span ?a ?b 2 1%Z] =>
      destruct (C01_span_equal_steps a b 2 1%Z 1 [2; 3]%nat) as (e & E' & Se & _);
        [lia|reflexivity|split; [cbn; lia|left; reflexivity]|] end.
    rewrite E'. cbn [bind]. unfold nd_map2. cbn [shp nd_map]. rewrite Se. reflexivity.
Qed.
Print Assumptions C01_span_equal_steps.
Print Assumptions C03_spanl.
