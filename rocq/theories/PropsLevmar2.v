(* C70-C72, C82-C84: finite differences, configuration and results of levmar
   (npplus/lsqfit.py:159-562). *)
From Coq Require Import List Arith ZArith Bool Lia Reals Lra Classical.
From Verif Require Import Num PyBase NdArray NdLemmas PwPoly RSum SolvePer SolveProofs Gauss LsqModel Levmar LevmarProofs LevmarDescent LevmarTerm PropsRegress PropsLevmar.
Import ListNotations.
Local Open Scope R_scope.

(* ---- C71: numerical_partials ---- *)
Section Partials.
  Variables (pmin pmax : option (list R)) (prel pabs : list R) (mask : list bool) (p : list R).
  (* the free parameters; the bounds are lists for these *)
  Definition free_idx : list nat := filter (fun i => nth i mask false) (seq 0 (length p)).
  Definition fr (k : nat) : nat := nth k free_idx 0%nat.
  (* the step of parameter i; whether the upper bound would be exceeded; the step taken *)
  Definition dstep (i : nat) : R := Rmax (nth i prel 0 * Rabs (nth i p 0)) (nth i pabs 0).
  Definition exceeds (k : nat) : Prop := exists hi, pmax = Some hi /\ nth k hi 0 < nth (fr k) p 0 + dstep (fr k).
  Definition is_delta (k : nat) (d : R) : Prop := (exceeds k -> d = - dstep (fr k)) /\ (~ exceeds k -> d = dstep (fr k)).
  Definition too_close : Prop :=
    (exists k, (k < length free_idx)%nat /\ exceeds k) /\
    exists lo k d, pmin = Some lo /\ (k < length free_idx)%nat /\ is_delta k d /\ nth (fr k) p 0 + d < nth k lo 0.
  (* q is p with parameter i replaced by p_i + d *)
  Definition moved (i : nat) (d : R) (q : list R) : Prop :=
    length q = length p /\ nth i q 0 = nth i p 0 + d /\ forall j, j <> i -> nth j q 0 = nth j p 0.

  Hypothesis Lm : length mask = length p.
  Hypothesis Lr : length prel = length p.
  Hypothesis La : length pabs = length p.
  Hypothesis Llo : forall l, pmin = Some l -> length l = length free_idx.
  Hypothesis Lhi : forall l, pmax = Some l -> length l = length free_idx.

  Lemma sel_filter : forall (m : list bool) a, sel m (seq a (length m)) = filter (fun i => nth (i - a) m false) (seq a (length m)).
  Proof.
    induction m as [|b m IH]; intros a; [reflexivity|]. cbn [length seq sel filter].
    replace (nth (a - a) (b :: m) false) with b by (rewrite Nat.sub_diag; reflexivity).
    assert (E : filter (fun i => nth (i - a) (b :: m) false) (seq (S a) (length m)) = filter (fun i => nth (i - S a) m false) (seq (S a) (length m))).
    { apply filter_ext_in. intros i Hi. apply in_seq in Hi. replace (i - a)%nat with (S (i - S a)) by lia. reflexivity. }
    rewrite E, <- IH. reflexivity.
  Qed.
  Lemma free_sel : free_idx = sel mask (seq 0 (length p)).
  Proof.
    unfold free_idx. rewrite <- Lm, sel_filter. apply filter_ext. intros i. rewrite Nat.sub_0_r. reflexivity.
  Qed.
  Lemma free_len : length free_idx = nfree mask.
  Proof. rewrite free_sel. apply sel_length. rewrite seq_length. exact Lm. Qed.
  Lemma fr_spec k : (k < nfree mask)%nat -> (fr k < length p)%nat /\ nth (fr k) mask false = true /\ rank_of mask (fr k) = k.
  Proof. intros Hk. unfold fr. rewrite free_sel. apply (fidx_spec mask (length p) k Lm Hk). Qed.
  Lemma sel_fr (l : list R) k : (k < nfree mask)%nat -> nth k (sel mask l) 0 = nth (fr k) l 0.
  Proof. intros Hk. destruct (fr_spec k Hk) as (_ & H1 & H2). rewrite <- H2 at 1. apply sel_nth, H1. Qed.
  Lemma moved_put k d : (k < nfree mask)%nat ->
    moved (fr k) d (put mask p (upd k (nth k (sel mask p) 0 + d) (sel mask p))).
  Proof.
    intros Hk. destruct (fr_spec k Hk) as (F1 & F2 & F3). set (fp := upd k _ _).
    assert (Lf : length fp = nfree mask) by (unfold fp; rewrite upd_length; apply sel_length; exact Lm).
    assert (N : forall j, nth j mask false = true -> nth j (put mask p fp) 0 = nth (rank_of mask j) fp 0).
    { intros j Hj. rewrite <- (sel_nth mask (put mask p fp) j 0 Hj), sel_put by auto. reflexivity. }
    split; [apply put_length|]. split.
    - rewrite N, F3 by auto. unfold fp. rewrite nth_upd_eq by (rewrite sel_length; auto). rewrite sel_fr by auto. reflexivity.
    - intros j Hj. destruct (nth j mask true) eqn:Q.
      + destruct (Nat.lt_ge_cases j (length mask)) as [Hl|Hl].
        * rewrite (nth_indep _ true false) in Q by auto. rewrite N by auto.
          unfold fp. rewrite nth_upd_neq.
          -- apply sel_nth, Q.
          -- intros E. apply Hj. apply (rank_inj mask); auto. congruence.
        * rewrite !nth_overflow; auto; [lia|rewrite put_length; lia].
      + apply put_fixed, Q.
  Qed.
  Lemma steps_val k : (k < nfree mask)%nat -> nth k (np_steps prel pabs mask p) 0 = dstep (fr k).
  Proof.
    intros Hk. destruct (fr_spec k Hk) as (F1 & _). unfold np_steps. rewrite sel_fr by auto.
    rewrite (nth_zipw2 _ _ _ _ (0, 0) 0) by (rewrite combine_length; lia). rewrite combine_nth by lia. cbn [fst snd].
    rewrite nmax_R, nabs_R. reflexivity.
  Qed.
  Lemma existsb_nth (l : list bool) : existsb (fun b => b) l = true <-> exists k, (k < length l)%nat /\ nth k l false = true.
  Proof.
    rewrite existsb_exists. split.
    - intros (x & Hx & ->). destruct (In_nth _ _ false Hx) as (k & Hk & E). eauto.
    - intros (k & Hk & E). exists true. split; auto. rewrite <- E. apply nth_In, Hk.
  Qed.
  Lemma flip_cases :
    (np_flip pmin pmax (sel mask p) (np_steps prel pabs mask p) = Err ValueError /\ too_close) \/
    exists dps, np_flip pmin pmax (sel mask p) (np_steps prel pabs mask p) = Ok dps /\ ~ too_close /\ length dps = nfree mask /\
      forall k, (k < nfree mask)%nat -> is_delta k (nth k dps 0).
  Proof.
    set (dp := np_steps prel pabs mask p). set (fp := sel mask p).
    assert (Ld : length dp = nfree mask).
    { unfold dp, np_steps. apply sel_length. rewrite zipw_length, combine_length. lia. }
    assert (Lf : length fp = nfree mask) by (apply sel_length; exact Lm).
    destruct pmax as [hi|] eqn:Ehi.
    2:{ right. exists dp. split; [reflexivity|]. split; [|split; [exact Ld|]].
        - intros ((k & _ & hi & Q & _) & _). congruence.
        - intros k Hk. split; [intros (hi & Q & _); congruence|]. intros _. apply steps_val, Hk. }
    specialize (Lhi hi eq_refl). rewrite free_len in Lhi.
    unfold np_flip. set (mk := zipw (fun xd h => (h <? fst xd + snd xd)%K) (combine fp dp) hi).
    set (dp' := zipw (fun (m : bool) d => if m then (d * - n1)%K else d) mk dp).
    assert (Lmk : length mk = nfree mask) by (unfold mk; rewrite zipw_length, combine_length; lia).
    assert (Ldp : length dp' = nfree mask) by (unfold dp'; rewrite zipw_length; lia).
    assert (Mk : forall k, (k < nfree mask)%nat -> (nth k mk false = true <-> exceeds k)).
    { intros k Hk. unfold mk. rewrite (nth_zipw2 _ _ _ _ (0, 0) 0) by (rewrite combine_length; lia). rewrite combine_nth by lia.
      cbn [fst snd]. unfold fp, dp. rewrite sel_fr, steps_val by auto. numR. unfold exceeds. rewrite Ehi. split.
      - intros Q. exists hi. split; auto. destruct (Rltb_spec (nth k hi 0) (nth (fr k) p 0 + dstep (fr k))); [auto|discriminate].
      - intros (h & Q & Hlt). injection Q as <-. apply Rltb_true, Hlt. }
    assert (Dk : forall k, (k < nfree mask)%nat -> is_delta k (nth k dp' 0)).
    { intros k Hk. unfold dp'. rewrite (nth_zipw2 _ _ _ _ false 0) by lia. specialize (Mk k Hk). unfold dp. rewrite steps_val by auto.
      destruct (nth k mk false); split; intros Q; numR; try ring.
      - exfalso. apply Q, Mk. reflexivity.
      - apply Mk in Q. discriminate. }
    assert (EX : existsb (fun m => m) mk = true <-> exists k, (k < length free_idx)%nat /\ exceeds k).
    { rewrite existsb_nth, Lmk, free_len. split; intros (k & Hk & Q); exists k; split; auto; apply (Mk k Hk); exact Q. }
    assert (UQ : forall k d d', is_delta k d -> is_delta k d' -> d = d').
    { intros k d d' [A B] [A' B']. destruct (classic (exceeds k)) as [Q|Q]; [rewrite A, A'|rewrite B, B']; auto. }
    destruct (existsb (fun m => m) mk) eqn:E1.
    - destruct pmin as [lo|] eqn:Elo.
      + specialize (Llo lo eq_refl). rewrite free_len in Llo.
        set (ck := zipw (fun xd l => (fst xd + snd xd <? l)%K) (combine fp dp') lo).
        assert (Lck : length ck = nfree mask) by (unfold ck; rewrite zipw_length, combine_length; lia).
        assert (Ck : forall k, (k < nfree mask)%nat -> (nth k ck false = true <-> nth (fr k) p 0 + nth k dp' 0 < nth k lo 0)).
        { intros k Hk. unfold ck. rewrite (nth_zipw2 _ _ _ _ (0, 0) 0) by (rewrite combine_length; lia). rewrite combine_nth by lia.
          cbn [fst snd]. unfold fp. rewrite sel_fr by auto. numR. split; intros Q.
          - destruct (Rltb_spec (nth (fr k) p 0 + nth k dp' 0) (nth k lo 0)); [auto|discriminate].
          - apply Rltb_true, Q. }
        assert (TC : existsb (fun b => b) ck = true <-> too_close).
        { rewrite existsb_nth, Lck. unfold too_close. rewrite Elo. split.
          - intros (k & Hk & Q). split; [apply EX; reflexivity|]. exists lo, k, (nth k dp' 0). rewrite free_len.
            split; [auto|]. split; [auto|]. split; [apply Dk, Hk|apply (Ck k Hk), Q].
          - intros (_ & lo' & k & d & Q & Hk & Hd & Hlt). injection Q as <-. rewrite free_len in Hk. exists k. split; auto. apply (Ck k Hk).
            rewrite (UQ k _ d (Dk k Hk) Hd). exact Hlt. }
        destruct (existsb (fun b => b) ck) eqn:E2.
        * left. split; [reflexivity|]. apply TC. reflexivity.
        * right. exists dp'. split; [reflexivity|]. split; [|auto]. intros Q. apply TC in Q. discriminate.
      + right. exists dp'. split; [reflexivity|]. split; [|auto]. intros (_ & lo & k & d & Q & _). rewrite Elo in Q. discriminate.
    - right. exists dp'. split; [reflexivity|]. split; [|auto]. intros (Q & _). apply EX in Q. discriminate.
  Qed.

  Section Calls.
    Variable h : nat -> list R -> res (nd R).
    Let fp := sel mask p.
    Let disp i (dps : list R) j := put mask p (upd (i + j) (nth (i + j) fp 0 + nth j dps 0) fp).
    (* whatever f does *)
    Lemma loop_calls f0 : forall dps i tr, exists m, (m <= length dps)%nat /\
      snd (np_loop h mask p fp f0 i dps tr) = tr ++ map (disp i dps) (seq 0 m).
    Proof.
      induction dps as [|d dps IH]; intros i tr; cbn [np_loop].
      - exists 0%nat. cbn. rewrite app_nil_r. auto.
      - destruct (d =? n0)%K. { exists 0%nat. cbn. rewrite app_nil_r. split; [lia|reflexivity]. }
        unfold sbind, call_plain, slift. destruct (h (length tr) _) as [v|e].
        2:{ exists 1%nat. cbn. unfold disp. rewrite Nat.add_0_r. split; [lia|]. reflexivity. }
        destruct (nd_map2 nsub v f0) as [df|e].
        2:{ exists 1%nat. cbn. unfold disp. rewrite Nat.add_0_r. split; [lia|]. reflexivity. }
        destruct (IH (S i) (tr ++ [put mask p (upd i (nth i fp n0 + d)%K fp)])) as (m & Hm & E).
        destruct (np_loop h mask p fp f0 (S i) dps _) as [r tr'] eqn:Q. cbn [snd] in E.
        exists (S m). cbn [length]. split; [lia|].
        assert (EE : tr' = tr ++ map (disp i (d :: dps)) (seq 0 (S m))).
        { rewrite E, <- app_assoc. f_equal. cbn [seq map app]. f_equal.
          - unfold disp. rewrite Nat.add_0_r. reflexivity.
          - rewrite <- seq_shift, map_map. apply map_ext. intros j. unfold disp. replace (i + S j)%nat with (S i + j)%nat by lia. reflexivity. }
        destruct r; cbn [snd sret]; exact EE.
    Qed.
    (* f returning arrays of one shape *)
    Variable V : nat -> list R -> nd R.
    Variable s : list nat.
    Hypothesis HV : forall k q, length q = length p -> h k q = Ok (V k q) /\ shp (V k q) = s.
    Variable f0 : nd R.
    Hypothesis S0 : shp f0 = s.
    Lemma loop_ok : forall dps i tr, Forall (fun d => d <> 0) dps ->
      exists rows, np_loop h mask p fp f0 i dps tr = (Ok rows, tr ++ map (disp i dps) (seq 0 (length dps))) /\ length rows = length dps /\
        forall j r, (j < length dps)%nat -> shp (nth j rows r) = s /\ forall idx, inb idx s ->
          get (nth j rows r) idx = (get (V (length tr + j) (disp i dps j)) idx - get f0 idx) / nth j dps 0.
    Proof.
      induction dps as [|d dps IH]; intros i tr HF; cbn [np_loop].
      - exists []. cbn. rewrite app_nil_r. repeat split; auto; cbn in *; lia.
      - inversion_clear HF as [|? ? Hd HF']. change (d =? n0)%K with (Reqb d 0). rewrite (Reqb_false d 0 Hd).
        set (q0 := put mask p (upd i (nth i fp n0 + d)%K fp)).
        destruct (HV (length tr) q0 (put_length _ _ _)) as [E0 Sv].
        unfold sbind, call_plain, slift. fold q0. rewrite E0.
        rewrite (nd_map2_same nsub (V (length tr) q0) f0 s Sv S0). set (df := Nd s _).
        destruct (IH (S i) (tr ++ [q0]) HF') as (rows & ER & Lrw & GR). rewrite ER. unfold sret.
        exists (nd_map (fun x => (x / d)%K) df :: rows). cbn [length]. split; [|split; [lia|]].
        + f_equal. rewrite <- app_assoc. f_equal. cbn [seq map app]. f_equal.
          * unfold disp. rewrite Nat.add_0_r. reflexivity.
          * rewrite <- seq_shift, map_map. apply map_ext. intros j. unfold disp. replace (i + S j)%nat with (S i + j)%nat by lia. reflexivity.
        + intros [|j] r Hj.
          * cbn [nth]. cbn [nd_map shp get]. split; [reflexivity|]. intros idx Hx. unfold df. cbn [get].
            rewrite !bget_self by (rewrite ?Sv, ?S0; exact Hx).
            unfold disp. rewrite !Nat.add_0_r. cbn [nth]. reflexivity.
          * cbn [nth]. destruct (GR j r ltac:(lia)) as [A B]. split; [exact A|]. intros idx Hx. rewrite (B idx Hx).
            rewrite app_length. cbn [length]. unfold disp. replace (length tr + 1 + j)%nat with (length tr + S j)%nat by lia.
            replace (i + S j)%nat with (S i + j)%nat by lia. reflexivity.
    Qed.
    Lemma loop_zero : forall dps i tr k, (k < length dps)%nat -> nth k dps 0 = 0 -> (forall j, (j < k)%nat -> nth j dps 0 <> 0) ->
      np_loop h mask p fp f0 i dps tr = (Err ValueError, tr ++ map (disp i dps) (seq 0 k)).
    Proof.
      induction dps as [|d dps IH]; intros i tr k Hk Hz Hn; [cbn in Hk; lia|]. cbn [np_loop].
      destruct k as [|k].
      - cbn in Hz. subst d. change (0 =? n0)%K with (Reqb 0 0). rewrite (Reqb_true 0 0 eq_refl). cbn. rewrite app_nil_r. reflexivity.
      - change (d =? n0)%K with (Reqb d 0). rewrite (Reqb_false d 0 (Hn 0%nat ltac:(lia))).
        set (q0 := put mask p (upd i (nth i fp n0 + d)%K fp)).
        destruct (HV (length tr) q0 (put_length _ _ _)) as [E0 Sv].
        unfold sbind, call_plain, slift. fold q0. rewrite E0.
        rewrite (nd_map2_same nsub (V (length tr) q0) f0 s Sv S0).
        rewrite (IH (S i) (tr ++ [q0]) k) by (cbn in *; auto; try lia; intros j Hj; apply (Hn (S j)); lia).
        f_equal. rewrite <- app_assoc. f_equal. cbn [seq map app]. f_equal.
        + unfold disp. rewrite Nat.add_0_r. reflexivity.
        + rewrite <- seq_shift, map_map. apply map_ext. intros j. unfold disp. replace (i + S j)%nat with (S i + j)%nat by lia. reflexivity.
    Qed.
  End Calls.
End Partials.

Definition np_args_ok (pmin pmax : option (list R)) (prel pabs : list R) (mask : list bool) (p : list R) : Prop :=
  length mask = length p /\ length prel = length p /\ length pabs = length p /\
  (forall l, pmin = Some l -> length l = length (free_idx mask p)) /\ (forall l, pmax = Some l -> length l = length (free_idx mask p)).

(* C71: every call displaces exactly one free parameter, the k-th call the k-th free one,
   by its step or, when that would exceed the upper bound, by minus the step; bounds too
   close or a zero step raise ValueError; the result has the difference quotients *)
Theorem C71_partials h pmin pmax prel pabs mask p f0 tr : np_args_ok pmin pmax prel pabs mask p ->
  let run := numerical_partials h pmin pmax prel pabs mask p f0 tr in
  let nf := length (free_idx mask p) in
  let delta := is_delta pmax prel pabs mask p in
  let close := too_close pmin pmax prel pabs mask p in
  exists qs, snd run = tr ++ qs /\ (length qs <= nf)%nat /\
  (forall k, (k < length qs)%nat -> exists d, delta k d /\ moved p (fr mask p k) d (nth k qs [])) /\
  (close -> fst run = Err ValueError /\ qs = []) /\
  forall V s, (forall k q, length q = length p -> h k q = Ok (V k q) /\ shp (V k q) = s) -> shp f0 = s -> ~ close ->
    (forall k, (k < nf)%nat -> delta k 0 -> fst run = Err ValueError) /\
    ((0 < nf)%nat -> (forall k, (k < nf)%nat -> ~ delta k 0) ->
       exists D, fst run = Ok D /\ shp D = nf :: s /\ length qs = nf /\
         forall k idx, (k < nf)%nat -> inb idx s -> exists d, delta k d /\ moved p (fr mask p k) d (nth k qs []) /\
           get D (k :: idx) = (get (V (length tr + k)%nat (nth k qs [])) idx - get f0 idx) / d).
Proof.
  intros (Lm & Lr & La & Llo & Lhi) run nf delta close.
  pose proof (free_len prel pabs mask p Lm Lr La) as FL. fold nf in FL.
  assert (RUN : run = match np_flip pmin pmax (sel mask p) (np_steps prel pabs mask p) with
    | Err e => (Err e, tr)
    | Ok dps => match np_loop h mask p (sel mask p) f0 0 dps tr with (Ok rows, tr') => (np_stack rows, tr') | (Err e, tr') => (Err e, tr') end end).
  { unfold run, numerical_partials, sbind, slift. destruct (np_flip _ _ _ _); [|reflexivity]. destruct (np_loop _ _ _ _ _ _ _ _) as [[|] ?]; reflexivity. }
  clearbody run. destruct (flip_cases pmin pmax prel pabs mask p Lm Lr La Llo Lhi) as [[E TC]|(dps & E & NT & Ld & Hd)].
  - rewrite E in RUN. subst run. exists []. rewrite app_nil_r. cbn. split; [auto|]. split; [lia|]. split; [intros; lia|]. split; [auto|].
    intros V s _ _ NT. contradiction NT.
  - rewrite E in RUN. fold close in NT.
    set (cl := fun j => put mask p (upd (0 + j) (nth (0 + j) (sel mask p) 0 + nth j dps 0) (sel mask p))).
    assert (CL : forall m k, (m <= nf)%nat -> (k < m)%nat -> exists d, delta k d /\ nth k dps 0 = d /\ moved p (fr mask p k) d (nth k (map cl (seq 0 m)) [])).
    { intros m k Hm Hk. exists (nth k dps 0). split; [apply Hd; lia|]. split; [reflexivity|].
      rewrite (nth_indep _ [] (cl 0%nat)) by (rewrite map_length, seq_length; auto). rewrite map_nth, seq_nth by auto.
      apply (moved_put prel pabs); auto; lia. }
    destruct (loop_calls prel pabs mask p Lm Lr La h f0 dps 0 tr) as (m & Hm & EM). fold cl in EM.
    exists (map cl (seq 0 m)). rewrite map_length, seq_length.
    destruct (np_loop h mask p (sel mask p) f0 0 dps tr) as [r tr'] eqn:EL. cbn [snd] in EM. subst tr'.
    assert (S1 : snd run = tr ++ map cl (seq 0 m)) by (rewrite RUN; destruct r; reflexivity).
    split; [exact S1|]. split; [lia|]. split.
    { intros k Hk. destruct (CL m k ltac:(lia) Hk) as (d & A & _ & B). eauto. }
    split; [intros Q; contradiction NT|].
    intros V s HV S0 _. split.
    + intros k Hk Dk0.
      assert (DZ : nth k dps 0 = 0).
      { destruct (Hd k ltac:(lia)) as [A B]. destruct Dk0 as [A' B']. destruct (classic (exceeds pmax prel pabs mask p k)) as [Q|Q].
        - rewrite (A Q). symmetry. auto.
        - rewrite (B Q). symmetry. auto. }
      assert (FZ : exists k0, (k0 < length dps)%nat /\ nth k0 dps 0 = 0 /\ forall j, (j < k0)%nat -> nth j dps 0 <> 0).
      { rewrite FL, <- Ld in Hk. clear - Hk DZ. revert k Hk DZ. induction dps as [|d dps IH]; intros k Hk DZ; [cbn in Hk; lia|].
        destruct (Req_dec d 0) as [->|Hn]; [exists 0%nat; cbn; repeat split; auto; lia|].
        destruct k as [|k]; [contradiction|]. cbn in Hk. destruct (IH k ltac:(lia) DZ) as (k0 & A & B & C). exists (S k0). cbn. split; [lia|]. split; [auto|].
        intros [|j] Hj; [exact Hn|]. apply C. lia. }
      destruct FZ as (k0 & A & B & C).
      rewrite (loop_zero prel pabs mask p Lm Lr La h V s HV f0 S0 dps 0 tr k0 A B C) in EL. injection EL as <- _. rewrite RUN. reflexivity.
    + intros Hpos HNZ.
      assert (FA : Forall (fun d => d <> 0) dps).
      { apply Forall_forall. intros d Hin Hz. destruct (In_nth _ _ 0 Hin) as (k & Hk & Q). apply (HNZ k ltac:(lia)). rewrite <- Hz, <- Q. apply Hd. lia. }
      destruct (loop_ok prel pabs mask p Lm Lr La h V s HV f0 S0 dps 0 tr FA) as (rows & ER & Lrw & GR). rewrite EL in ER. fold cl in ER.
      injection ER as -> TT. apply app_inv_head in TT.
      assert (EQ : m = nf). { apply (f_equal (@length _)) in TT. rewrite !map_length, !seq_length in TT. lia. }
      subst m. rewrite RUN. cbn [fst].
      destruct rows as [|r0 rows'] eqn:Er; [cbn in Lrw; lia|]. rewrite <- Er in *.
      assert (Sr0 : shp r0 = s). { destruct (GR 0%nat r0 ltac:(lia)) as [A _]. rewrite Er in A. exact A. }
      assert (FS : np_stack rows = Ok (Nd (length rows :: shp r0) (fun idx => get (nth (hd 0%nat idx) rows r0) (tl idx)))).
      { unfold np_stack. rewrite Er at 1. 
        replace (forallb _ rows) with true; [reflexivity|]. symmetry. apply forallb_forall. intros q Hq. destruct (In_nth _ _ r0 Hq) as (k & Hk & <-).
        destruct (list_eq_dec Nat.eq_dec _ _) as [|N]; auto. exfalso. apply N. rewrite Sr0. apply (GR k r0). lia. }
      rewrite FS. eexists. split; [reflexivity|]. cbn [shp get hd tl]. rewrite Lrw, Ld, <- FL, Sr0. split; [reflexivity|]. split; [reflexivity|].
      intros k idx Hk Hx. destruct (CL nf k ltac:(lia) Hk) as (d & A & B & C). exists d. split; [exact A|]. split; [exact C|].
      destruct (GR k r0 ltac:(lia)) as [_ G]. rewrite (G idx Hx). fold (cl k). rewrite B.
      rewrite (nth_indep _ [] (cl 0%nat)) by (rewrite map_length, seq_length; lia). rewrite map_nth, seq_nth by lia. reflexivity.
Qed.

(* C71: exact for functions linear in p *)
Theorem C71_linear pmin pmax prel pabs mask p (c : list nat -> R) (a : nat -> list nat -> R) s tr :
  np_args_ok pmin pmax prel pabs mask p ->
  let F (q : list R) := Nd s (fun idx => c idx + rsum (length p) (fun i => a i idx * nth i q 0)) in
  let nf := length (free_idx mask p) in
  (0 < nf)%nat -> ~ too_close pmin pmax prel pabs mask p -> (forall k, (k < nf)%nat -> dstep prel pabs p (fr mask p k) <> 0) ->
  exists D, fst (numerical_partials (fun _ q => Ok (F q)) pmin pmax prel pabs mask p (F p) tr) = Ok D /\ shp D = nf :: s /\
    forall k idx, (k < nf)%nat -> inb idx s -> get D (k :: idx) = a (fr mask p k) idx.
Proof.
  intros Ha F nf Hpos NT HS.
  destruct (C71_partials (fun _ q => Ok (F q)) pmin pmax prel pabs mask p (F p) tr Ha) as (qs & _ & _ & _ & _ & H).
  destruct (H (fun _ q => F q) s (fun k q _ => conj eq_refl eq_refl) eq_refl NT) as [_ H2].
  assert (DN : forall k d, (k < nf)%nat -> is_delta pmax prel pabs mask p k d -> d <> 0).
  { intros k d Hk [A B]. specialize (HS k Hk). destruct (classic (exceeds pmax prel pabs mask p k)) as [Q|Q]; [rewrite (A Q); lra|rewrite (B Q); exact HS]. }
  destruct (H2 Hpos) as (D & E & SD & Lq & G).
  { intros k Hk Q. apply (DN k 0 Hk Q). reflexivity. }
  exists D. split; [exact E|]. split; [exact SD|]. intros k idx Hk Hx. destruct (G k idx Hk Hx) as (d & Hd & (M1 & M2 & M3) & ->).
  pose proof (DN k d Hk Hd) as Hd0.
  destruct Ha as (Lm & Lr & La & _). destruct (fr_spec prel pabs mask p Lm Lr La k) as (Fk & _); [rewrite <- (free_len prel pabs mask p Lm Lr La); exact Hk|].
  cbn [get F].
  assert (E1 : rsum (length p) (fun i => a i idx * nth i (nth k qs []) 0) = rsum (length p) (fun i => a i idx * nth i p 0) + a (fr mask p k) idx * d).
  { rewrite <- (rsum_pick (length p) (fr mask p k) (fun i => a i idx * d) Fk), <- rsum_plus. apply rsum_ext. intros i Hi.
    destruct (Nat.eqb_spec (fr mask p k) i) as [<-|Hn]; [rewrite M2; ring|rewrite M3 by auto; ring]. }
  rewrite E1. field. exact Hd0.
Qed.

(* ---- C72: the ModelFit object ---- *)
(* C72: calling the model calls f with the fitted parameters; for a generator function
   the first value it yields *)
Theorem C72_call {K P A V} f (p : P) (pcov : option (arr2 K)) chi2 ndof isg u s (a : A) :
  isg = None \/ isg = Some (isgenf f) ->
  let m := mf_init (V := V) f p pcov chi2 ndof isg u s in
  mf_p m = p /\
  (forall g, f = Plain g -> mf_call m a = g p a) /\
  (forall g y ys, f = Gen g -> g p a = y :: ys -> mf_call m a = y).
Proof.
  intros H m. split; [reflexivity|].
  assert (E : mf_isgenf m = isgenf f) by (destruct H; subst isg; reflexivity).
  unfold mf_call. rewrite E. split.
  - intros g ->. reflexivity.
  - intros g y ys -> Hg. cbn. rewrite Hg. reflexivity.
Qed.
(* C72: perr, chi2pcov and chiperr *)
Theorem C72_statistics {P A V} (m : modelfit R P A V) c x n :
  mf_pcov m = Some c -> mf_chi2 m = Some x -> nr c = n -> SolvePer.nc c = n ->
  (exists e, mf_perr sqrt m = Ok e /\ length e = n /\ forall i, (i < n)%nat -> nth i e 0 = sqrt (at2 c i i) /\
     (0 <= at2 c i i -> 0 <= nth i e 0 /\ (nth i e 0) ^ 2 = at2 c i i)) /\
  (exists xc, mf_chi2pcov m = Ok xc /\ nr xc = n /\ SolvePer.nc xc = n /\ forall i j, at2 xc i j = x * at2 c i j) /\
  (exists e, mf_chiperr sqrt m = Ok e /\ length e = n /\ forall i, (i < n)%nat -> nth i e 0 = sqrt (x * at2 c i i) /\
     (0 <= x -> 0 <= at2 c i i -> nth i e 0 = sqrt x * sqrt (at2 c i i) /\ (nth i e 0) ^ 2 = x * at2 c i i)).
Proof.
  intros Hc Hx N1 N2. unfold mf_perr, mf_chiperr, mf_chi2pcov. rewrite Hc, Hx. cbn [of_opt bind].
  assert (D : forall (a : arr2 R), nr a = n -> SolvePer.nc a = n -> length (map sqrt (diag2 a)) = n /\ forall i, (i < n)%nat -> nth i (map sqrt (diag2 a)) 0 = sqrt (at2 a i i)).
  { intros a A1 A2. unfold diag2. rewrite A1, A2, Nat.min_id. split; [rewrite !map_length, seq_length; reflexivity|].
    intros i Hi. rewrite map_map. rewrite (nth_indep _ 0 (sqrt (at2 a 0%nat 0%nat))) by (rewrite map_length, seq_length; exact Hi).
    rewrite (map_nth (fun i => sqrt (at2 a i i))), seq_nth by exact Hi. reflexivity. }
  split; [|split].
  - destruct (D c N1 N2) as [L E]. eexists. split; [reflexivity|]. split; [exact L|]. intros i Hi. rewrite (E i Hi). split; [reflexivity|].
    intros H. split; [apply sqrt_pos|]. rewrite <- Rsqr_pow2. apply Rsqr_sqrt, H.
  - eexists. split; [reflexivity|]. cbn. repeat split; auto.
  - destruct (D (nd2_map (fun y => (x * y)%K) c) N1 N2) as [L E]. eexists. split; [reflexivity|]. split; [exact L|]. intros i Hi. rewrite (E i Hi).
    cbn [nd2_map at2]. numR. split; [reflexivity|]. intros Hx0 Hc0. split; [apply sqrt_mult; assumption|].
    rewrite <- Rsqr_pow2. apply Rsqr_sqrt. apply Rmult_le_pos; assumption.
Qed.

(* a ModelFit made without pcov, chi2 or ndof has no such statistics: perr raises ValueError (diag of None), the products
   with None TypeError; isgenf says how f is called, whatever f is *)
Theorem C72_missing {P A V} (m : modelfit R P A V) q :
  (mf_pcov m = None -> mf_perr sqrt m = Err ValueError) /\
  (mf_pcov m = None \/ mf_chi2 m = None -> mf_chi2pcov m = Err TypeError /\ mf_chiperr sqrt m = Err TypeError) /\
  (mf_chi2 m = None \/ mf_ndof m = None -> mf_chi2prob q m None = Err TypeError) /\
  (mf_ndof m = None -> forall x, mf_chi2prob q m (Some x) = Err TypeError) /\
  (forall f p (a : A) (y : V), f p a = Ok y -> mf_call (mf_init (K := R) (P := P) (Plain f) p None None None (Some true) None None) a = Err TypeError) /\
  (forall g p (a : A), mf_call (mf_init (K := R) (P := P) (V := V) (Gen g) p None None None (Some false) None None) a = Err TypeError).
Proof.
  unfold mf_perr, mf_chi2pcov, mf_chiperr, mf_chi2prob. repeat split.
  - intros ->. reflexivity.
  - destruct H as [->| ->]; [destruct (mf_chi2 m); reflexivity|reflexivity].
  - unfold mf_chi2pcov. destruct H as [->| ->]; [destruct (mf_chi2 m); reflexivity|reflexivity].
  - intros [->| ->]; [reflexivity|destruct (mf_chi2 m); reflexivity].
  - intros -> x. reflexivity.
  - intros f p a y H. cbn. rewrite H. reflexivity.
Qed.
(* f(p, args) as levmar calls it with its own args, lsqfit.py:312-324; a generator that
   stops too early raises (StopIteration) *)
Definition lfun_of {A} (f : ufun (list R) A (nd R)) (a0 : A) : @lfun R :=
  match f with
  | Plain g => LPlain (fun _ p => g p a0)
  | Gen g => LGen (fun _ p => match g p a0 with
                              | y0 :: y1 :: _ => (y0, y1) | [y0] => (y0, Err ValueError) | [] => (Err ValueError, Err ValueError) end)
  end.
(* ModelFit(f, pfull, pcov, chi2, ndof, isgenf, info=cfg), lsqfit.py:388 *)
Definition levmar_model {A} (f : ufun (list R) A (nd R)) (m : @lmfit R) : modelfit R (list R) A (nd R) :=
  mf_init f (l_p m) (Some (l_pcov m)) (Some (l_chi2 m)) (Some (l_ndof m)) (Some (l_isgenf m)) None None.
Definition first_value {A} (f : ufun (list R) A (nd R)) (p : list R) (a : A) : res (nd R) :=
  match f with Plain g => g p a | Gen g => match g p a with y :: _ => y | [] => Err ValueError end end.
(* C72 for the models returned by levmar: model(args) is f(model.p, args), and chi2 is
   computed from the values of model(args) with the args given to levmar *)
Theorem C72_levmar {A} (f : ufun (list R) A (nd R)) a0 solve inv fo fi cfg data p0 kw m :
  fst (levmar_run (lfun_of f a0) solve inv fo fi cfg data p0 kw []) = Ok (Some m) ->
  (forall a, mf_call (levmar_model f m) a = first_value f (l_p m) a) /\
  (solve_len solve -> lerrs_ok data kw -> 0 <= c_tol cfg -> (forall p v, first_value f p a0 = Ok v -> bto (shp v) [npts data] = true) ->
   exists v, mf_call (levmar_model f m) a0 = Ok v /\
     l_chi2 m = rsum (npts data) (fun t => ((dpt data t - bget v [t]) / leps data kw t) ^ 2) / IZR (l_ndof m)).
Proof.
  intros Hm.
  assert (IG : l_isgenf m = isgenf f).
  { destruct (levmar_unfold (lfun_of f a0) solve inv fo fi cfg data p0 kw) as [[e E]|(errs & pmin & pmax & prel & pabs & mask & _ & _ & _ & _ & _ & _ & E)];
      rewrite E in Hm; [discriminate|]. destruct (lm_outer _ _ _ _ _ _ _ _ _ _ _ _ _ _ _ _ _ _ _) as [[[o|]|e] tr]; try discriminate.
    cbn [lm_finish] in Hm. destruct (inv (o_alpha o)); [|discriminate]. destruct (spread mask a); [|discriminate].
    injection Hm as <-. destruct f; reflexivity. }
  assert (C1 : forall a, mf_call (levmar_model f m) a = first_value f (l_p m) a).
  { intros a. unfold levmar_model, mf_call, mf_init. cbn. rewrite IG. destruct f; reflexivity. }
  split; [exact C1|]. intros Hsl He Ht Hv.
  assert (DV : det_val (lfun_of f a0) (fun p => first_value f p a0)).
  { unfold det_val. destruct f as [g|g]; cbn; [reflexivity|]. intros k p. destruct (g p a0) as [|y0 [|y1 r]]; reflexivity. }
  destruct (C67_partial (lfun_of f a0) solve inv (fun p => first_value f p a0) fo fi cfg data p0 kw m Hsl DV Hv He Ht Hm) as [[E _] (its & (I1 & I2 & I3 & I4) & _)].
  rewrite E, C1. unfold lcost. destruct (first_value f (l_p m) a0) as [v|] eqn:Q; [eauto|].
  exfalso. rewrite Forall_forall in I4. destruct (I4 (l_p m)) as [_ [v Hv']]; [|congruence].
  rewrite <- I3. apply nth_In. destruct its; [contradiction|cbn; lia].
Qed.

(* C71: parameters 2, 5 (fixed), 3 with upper bounds 2 and 9: down for the first, up for the last *)
Example ex_C71 : let prel := [1 / 10; 1 / 10; 1 / 10] in let pabs := [1 / 100; 1 / 100; 1 / 100] in
  let mask := [true; false; true] in let p := [2; 5; 3] in
  np_args_ok (Some [0; 0]) (Some [2; 9]) prel pabs mask p /\ ~ too_close (Some [0; 0]) (Some [2; 9]) prel pabs mask p /\
  is_delta (Some [2; 9]) prel pabs mask p 0 (- (1 / 5)) /\ is_delta (Some [2; 9]) prel pabs mask p 1 (3 / 10) /\
  too_close (Some [2; 0]) (Some [2; 9]) prel pabs mask p.
Proof.
  cbn zeta.
  assert (D0 : dstep [1 / 10; 1 / 10; 1 / 10] [1 / 100; 1 / 100; 1 / 100] [2; 5; 3] 0 = 1 / 5).
  { unfold dstep. cbn. rewrite (Rabs_right 2), Rmax_left; lra. }
  assert (D1 : dstep [1 / 10; 1 / 10; 1 / 10] [1 / 100; 1 / 100; 1 / 100] [2; 5; 3] 2 = 3 / 10).
  { unfold dstep. cbn. rewrite (Rabs_right 3), Rmax_left; lra. }
  assert (X0 : exceeds (Some [2; 9]) [1 / 10; 1 / 10; 1 / 10] [1 / 100; 1 / 100; 1 / 100] [true; false; true] [2; 5; 3] 0).
  { exists [2; 9]. split; [reflexivity|]. change (fr [true; false; true] [2; 5; 3] 0) with 0%nat. rewrite D0. cbn. lra. }
  assert (X1 : ~ exceeds (Some [2; 9]) [1 / 10; 1 / 10; 1 / 10] [1 / 100; 1 / 100; 1 / 100] [true; false; true] [2; 5; 3] 1).
  { intros (hi & Q & H). injection Q as <-. change (fr [true; false; true] [2; 5; 3] 1) with 2%nat in H. rewrite D1 in H. cbn in H. lra. }
  assert (E0 : is_delta (Some [2; 9]) [1 / 10; 1 / 10; 1 / 10] [1 / 100; 1 / 100; 1 / 100] [true; false; true] [2; 5; 3] 0 (- (1 / 5))).
  { split; [intros _|contradiction]. change (fr [true; false; true] [2; 5; 3] 0) with 0%nat. rewrite D0. reflexivity. }
  assert (E1 : is_delta (Some [2; 9]) [1 / 10; 1 / 10; 1 / 10] [1 / 100; 1 / 100; 1 / 100] [true; false; true] [2; 5; 3] 1 (3 / 10)).
  { split; [contradiction|intros _]. change (fr [true; false; true] [2; 5; 3] 1) with 2%nat. rewrite D1. reflexivity. }
  split; [|split; [|split; [exact E0|split; [exact E1|]]]].
  - repeat split; auto; intros l Q; injection Q as <-; reflexivity.
  - intros (_ & lo & k & d & Q & Hk & [Da Db] & H). injection Q as <-. destruct k as [|[|k]]; cbn in Hk; try lia.
    + rewrite (Da X0) in H. change (fr [true; false; true] [2; 5; 3] 0) with 0%nat in H. rewrite D0 in H. cbn in H. lra.
    + rewrite (Db X1) in H. change (fr [true; false; true] [2; 5; 3] 1) with 2%nat in H. rewrite D1 in H. cbn in H. lra.
  - split; [exists 0%nat; split; [cbn; lia|exact X0]|]. exists [2; 0], 0%nat, (- (1 / 5)). split; [reflexivity|]. split; [cbn; lia|]. split; [exact E0|]. cbn. lra.
Qed.
Example ex_C72_missing : let m := mf_init (Plain (fun (p : list R) (a : R) => Ok (nth 0 p 0 * a))) [3] None (Some 9) (Some 1%Z) None None None in
  mf_perr sqrt m = Err ValueError /\ mf_chiperr sqrt m = Err TypeError /\ mf_call m 2 = Ok (3 * 2).
Proof. cbn. repeat split. Qed.
(* C72: a generator function of one argument and a covariance matrix *)
Example ex_C72 : let g (p : list R) (a : R) := [Ok (nth 0 p 0 * a); Ok a] in
  let m := mf_init (Gen g) [3] (Some (Arr2 1 1 (fun _ _ => 4))) (Some 9) (Some 1%Z) (Some true) None None in
  mf_call m 5 = Ok (3 * 5) /\ mf_perr sqrt m = Ok [sqrt 4] /\ mf_chiperr sqrt m = Ok [sqrt (9 * 4)].
Proof. cbn. repeat split. Qed.
Print Assumptions C71_partials.
Print Assumptions C71_linear.
Print Assumptions C72_call.
Print Assumptions C72_statistics.
Print Assumptions C72_missing.
Print Assumptions C72_levmar.
