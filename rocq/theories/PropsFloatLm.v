(* levmar in double precision arithmetic (npplus/lsqfit.py:277-388, 530-557): bounds and termination. *)
From Coq Require Import List Arith ZArith Bool Lia Reals Lra FunctionalExtensionality.
From Flocq Require Import BinarySingleNaN.
From Verif Require Import Num PyBase NdArray NdLemmas PwPoly SolvePer LsqModel Levmar LevmarProofs LevmarTerm PropsLevmar Float64.
Import ListNotations.

(** ** Bounds, from four laws of the arithmetic *)
Section Bounds.
  Context {K : Type} {NK : Num K}.
  Local Open Scope num_scope.
  Hypothesis lt_irr : forall x : K, (x <? x) = false.
  Hypothesis add_up : forall x l d : K, (x <? l) = false -> (d <? n0) = false -> (x + d <? l) = false.
  Hypothesis add_dn : forall x h d : K, (h <? x) = false -> (d <? n0) = false -> (h <? x + d * - n1) = false.
  Hypothesis max_pos : forall b a : K, (n0 <=? a) = true -> (nmax b a <? n0) = false.

  (* a bound given as one number for all parameters or one per parameter *)
  Definition gbnd (l : list K) (i : nat) : K := match l with [x] => x | _ => nth i l n0 end.
  (* not outside the bounds; nan is neither below nor above anything *)
  Definition gwithin (kw : @lmkw K) (i : nat) (x : K) : Prop :=
    (forall l, k_pmin kw = Some l -> (x <? gbnd l i) = false) /\ (forall l, k_pmax kw = Some l -> (gbnd l i <? x) = false).
  Definition gstep_abs (cfg : @lmcfg K) (kw : @lmkw K) (i : nat) : K :=
    match k_pabs kw with Some l => gbnd l i | None => c_pabs cfg end.
  Lemma gbc_list_bnd n (l l' : list K) i : bc_list n l = Ok l' -> (i < n)%nat -> nth i l' n0 = gbnd l i.
  Proof. intros E Hi. rewrite (bc_list_nth _ _ _ _ n0 E Hi). reflexivity. Qed.
  Lemma gbc_opt_bnd n (o : option (list K)) l : bc_opt n o = Ok (Some l) ->
    exists l0, o = Some l0 /\ forall i, (i < n)%nat -> nth i l n0 = gbnd l0 i.
  Proof.
    unfold bc_opt. destruct o as [l0|]; [|discriminate]. destruct (bc_list n l0) as [l1|] eqn:E; cbn; [|discriminate].
    intros H. injection H as <-. exists l0. split; auto. intros i Hi. apply (gbc_list_bnd n l0 l1 i E Hi).
  Qed.
  Definition ginside (lo hi : option (list K)) (n : nat) (fp : list K) : Prop :=
    forall j, (j < n)%nat -> (forall l, lo = Some l -> (nth j fp n0 <? nth j l n0) = false) /\ (forall l, hi = Some l -> (nth j l n0 <? nth j fp n0) = false).
  Lemma nmax_ge x l : (nmax x l <? l) = false.
  Proof. unfold nmax. destruct (x <? l) eqn:E; auto. Qed.
  Lemma nmin_le x h : (h <? nmin x h) = false.
  Proof. unfold nmin. destruct (h <? x) eqn:E; auto. Qed.
  Lemma nmin_ge x h l : (x <? l) = false -> (h <? l) = false -> (nmin x h <? l) = false.
  Proof. unfold nmin. destruct (h <? x); auto. Qed.
  Lemma gclip_inside lo hi n fp step : length fp = n -> length step = n ->
    (forall l, lo = Some l -> length l = n) -> (forall l, hi = Some l -> length l = n) ->
    (forall l h, lo = Some l -> hi = Some h -> forall j, (j < n)%nat -> (nth j h n0 <? nth j l n0) = false) ->
    ginside lo hi n (clip lo hi (zipw nadd fp step)).
  Proof.
    intros L1 L2 L3 L4 LE j Hj. unfold clip.
    assert (Lz : length (@zipw K K K nadd fp step) = n) by (rewrite zipw_length; lia).
    destruct lo as [l|], hi as [h|]; split; intros q Hq; try discriminate; injection Hq as <-.
    - rewrite (nth_zipw2 nmin _ _ _ n0 n0) by (rewrite !zipw_length, (L3 l), (L4 h), L1, L2; auto; lia).
      rewrite (nth_zipw2 nmax _ _ _ n0 n0) by (rewrite !zipw_length, (L3 l), L1, L2; auto; lia).
      apply nmin_ge; [apply nmax_ge|apply (LE l h eq_refl eq_refl j Hj)].
    - rewrite (nth_zipw2 nmin _ _ _ n0 n0) by (rewrite !zipw_length, (L3 l), (L4 h), L1, L2; auto; lia). apply nmin_le.
    - rewrite (nth_zipw2 nmax _ _ _ n0 n0) by (rewrite !zipw_length, (L3 l), L1, L2; auto; lia). apply nmax_ge.
    - rewrite (nth_zipw2 nmin _ _ _ n0 n0) by (rewrite !zipw_length, (L4 h), L1, L2; auto; lia). apply nmin_le.
  Qed.
  Lemma gflip_spec lo hi n fp dp dps : length fp = n -> length dp = n ->
    (forall l, lo = Some l -> length l = n) -> (forall l, hi = Some l -> length l = n) ->
    np_flip lo hi fp dp = Ok dps ->
    forall j, (j < n)%nat ->
    match hi with
    | None => nth j dps n0 = nth j dp n0
    | Some h =>
      if nth j h n0 <? nth j fp n0 + nth j dp n0 then
        nth j dps n0 = nth j dp n0 * - n1 /\ (forall l, lo = Some l -> (nth j fp n0 + nth j dps n0 <? nth j l n0) = false)
      else nth j dps n0 = nth j dp n0
    end.
  Proof.
    intros L1 L2 L3 L4 H j Hj. unfold np_flip in H. destruct hi as [h|]; [|injection H as <-; reflexivity].
    specialize (L4 h eq_refl).
    set (mask := zipw (fun xd h => (h <? fst xd + snd xd)%K) (combine fp dp) h) in *.
    set (dp' := zipw (fun (m : bool) d => if m then (d * - n1)%K else d) mask dp) in *.
    assert (Lm : length mask = n) by (unfold mask; rewrite zipw_length, combine_length; lia).
    assert (Ld : length dp' = n) by (unfold dp'; rewrite zipw_length; lia).
    assert (Mj : nth j mask false = (nth j h n0 <? nth j fp n0 + nth j dp n0)).
    { unfold mask. rewrite (nth_zipw2 _ _ _ _ (n0, n0) n0) by (rewrite combine_length; lia).
      rewrite combine_nth by lia. reflexivity. }
    assert (Dj : nth j dp' n0 = if nth j h n0 <? nth j fp n0 + nth j dp n0 then nth j dp n0 * - n1 else nth j dp n0).
    { unfold dp'. rewrite (nth_zipw2 _ _ _ _ false n0) by lia. rewrite Mj. reflexivity. }
    destruct (nth j h n0 <? nth j fp n0 + nth j dp n0) eqn:C.
    - assert (EX : existsb (fun m => m) mask = true).
      { apply existsb_exists. exists true. split; auto. rewrite <- Mj. apply nth_In. lia. }
      rewrite EX in H. destruct lo as [l|].
      + destruct (existsb _ _) eqn:EL in H; [discriminate|]. injection H as <-. split; [exact Dj|].
        intros l' Hl'. injection Hl' as <-. specialize (L3 l eq_refl).
        set (ck := zipw (fun xd l => (fst xd + snd xd <? l)%K) (combine fp dp') l) in EL.
        assert (Lc : length ck = n) by (unfold ck; rewrite zipw_length, combine_length; lia).
        assert (Q : nth j ck false = false).
        { destruct (nth j ck false) eqn:Q; auto. exfalso. assert (Z : existsb (fun b => b) ck = true).
          { apply existsb_exists. exists true. split; auto. rewrite <- Q. apply nth_In. lia. } congruence. }
        unfold ck in Q. rewrite (nth_zipw2 _ _ _ _ (n0, n0) n0) in Q by (rewrite combine_length; lia).
        rewrite combine_nth in Q by lia. exact Q.
      + injection H as <-. split; [exact Dj|]. discriminate.
    - destruct (existsb (fun m => m) mask).
      + destruct lo as [l|]; [destruct (existsb _ _); [discriminate|]|]; injection H as <-; exact Dj.
      + injection H as <-. exact Dj.
  Qed.

  Lemma bounds_gen f solve inv fo fi cfg data p0 (kw : @lmkw K) :
    solve_len solve ->
    let free i := (i < length p0)%nat /\ ~ fixed_par (length p0) (k_pfix kw) i in
    (forall i, free i -> gwithin kw i (nth i p0 n0)) ->
    (forall i, free i -> forall l h, k_pmin kw = Some l -> k_pmax kw = Some h -> (gbnd h i <? gbnd l i) = false) ->
    (forall i, free i -> (n0 <=? gstep_abs cfg kw i) = true) ->
    let out := levmar_run f solve inv fo fi cfg data p0 kw [] in
    (forall q, In q (snd out) -> forall i, free i -> gwithin kw i (nth i q n0)) /\
    (forall m, fst out = Ok (Some m) -> forall i, free i -> gwithin kw i (nth i (l_p m) n0)).
  Proof.
    intros Hs free Hp0 Hord Hab out.
    set (G := fun (mask : list bool) pmin pmax (fp : list K) => ginside (option_map (sel mask) pmin) (option_map (sel mask) pmax) (nfree mask) fp).
    destruct (levmar_inv f solve inv Hs fo fi cfg data p0 kw G) as [H1 H2].
    - intros mask pmin pmax prel pabs Em E1 E2 E3 E4. cbn zeta.
      destruct (mask_of_spec _ _ _ Em) as [Lm _].
      assert (FR : forall j, (j < nfree mask)%nat -> exists i, free i /\ nth i mask false = true /\ rank_of mask i = j).
      { intros j Hj. destruct (rank_onto mask j Hj) as (i & Hi & Hr). exists i.
        assert (Li : (i < length p0)%nat).
        { destruct (Nat.lt_ge_cases i (length p0)); auto. rewrite nth_overflow in Hi by lia. discriminate. }
        repeat split; auto. intros Hf. apply (mask_fixed _ _ _ _ Em Li) in Hf.
        rewrite (nth_indep _ true false) in Hf by lia. congruence. }
      assert (SN : forall (l : list K) i j, nth i mask false = true -> rank_of mask i = j -> nth j (sel mask l) n0 = nth i l n0).
      { intros l i j Hi <-. apply sel_nth. exact Hi. }
      assert (LO : forall l, option_map (sel mask) pmin = Some l -> length l = nfree mask /\
                forall i j, (i < length p0)%nat -> nth i mask false = true -> rank_of mask i = j -> exists l0, k_pmin kw = Some l0 /\ nth j l n0 = gbnd l0 i).
      { intros l Hl. destruct pmin as [pl|]; [|discriminate]. injection Hl as <-. split.
        - apply sel_length. rewrite Lm. symmetry. eapply bc_opt_len; eauto.
        - intros i j Li Hi Hr. destruct (gbc_opt_bnd _ _ _ E1) as (l0 & Hl0 & Hb). exists l0. split; auto.
          rewrite (SN pl i j Hi Hr). apply Hb, Li. }
      assert (HI : forall l, option_map (sel mask) pmax = Some l -> length l = nfree mask /\
                forall i j, (i < length p0)%nat -> nth i mask false = true -> rank_of mask i = j -> exists l0, k_pmax kw = Some l0 /\ nth j l n0 = gbnd l0 i).
      { intros l Hl. destruct pmax as [pl|]; [|discriminate]. injection Hl as <-. split.
        - apply sel_length. rewrite Lm. symmetry. eapply bc_opt_len; eauto.
        - intros i j Li Hi Hr. destruct (gbc_opt_bnd _ _ _ E2) as (l0 & Hl0 & Hb). exists l0. split; auto.
          rewrite (SN pl i j Hi Hr). apply Hb, Li. }
      assert (P0 : ginside (option_map (sel mask) pmin) (option_map (sel mask) pmax) (nfree mask) (sel mask p0)).
      { intros j Hj. destruct (FR j Hj) as (i & Hf & Hi & Hr). destruct (Hp0 i Hf) as [B1 B2].
        rewrite (SN p0 i j Hi Hr). split; intros l Hl.
        - destruct (LO l Hl) as [_ X]. destruct (X i j (proj1 Hf) Hi Hr) as (l0 & Hl0 & ->). apply B1, Hl0.
        - destruct (HI l Hl) as [_ X]. destruct (X i j (proj1 Hf) Hi Hr) as (l0 & Hl0 & ->). apply B2, Hl0. }
      assert (LE : forall l h, option_map (sel mask) pmin = Some l -> option_map (sel mask) pmax = Some h ->
                forall j, (j < nfree mask)%nat -> (nth j h n0 <? nth j l n0) = false).
      { intros l h Hl Hh j Hj. destruct (FR j Hj) as (i & Hf & Hi & Hr). destruct (LO l Hl) as [_ X]. destruct (HI h Hh) as [_ Y].
        destruct (X i j (proj1 Hf) Hi Hr) as (l0 & Hl0 & ->). destruct (Y i j (proj1 Hf) Hi Hr) as (h0 & Hh0 & ->). apply (Hord i Hf); auto. }
      split; [exact P0|]. split.
      + intros fp dps Lf Hg Hflip i Hi. unfold G in *.
        set (dp := np_steps prel pabs mask (put mask p0 fp)) in *.
        assert (Ld : length dp = nfree mask).
        { unfold dp, np_steps. apply sel_length. rewrite zipw_length, combine_length, put_length.
          apply bc_list_len in E3. apply bc_list_len in E4. lia. }
        assert (Dpos : (nth i dp n0 <? n0) = false).
        { destruct (FR i Hi) as (k & Hf & Hk & Hr). unfold dp, np_steps. rewrite (SN _ k i Hk Hr).
          pose proof (bc_list_len _ _ _ E3). pose proof (bc_list_len _ _ _ E4).
          rewrite (nth_zipw2 _ _ _ _ (n0, n0) n0) by (rewrite combine_length, put_length; destruct Hf; lia).
          apply max_pos. rewrite (gbc_list_bnd _ _ _ _ E4) by apply Hf. specialize (Hab k Hf). unfold gstep_abs, gbnd in *.
          destruct (k_pabs kw) as [l|]; exact Hab. }
        pose proof (gflip_spec _ _ (nfree mask) fp dp dps Lf Ld (fun l Hl => proj1 (LO l Hl)) (fun l Hl => proj1 (HI l Hl)) Hflip i Hi) as FS.
        intros j Hj. destruct (Hg j Hj) as [G1 G2]. destruct (Nat.eq_dec i j) as [<-|Hne]; [|rewrite nth_upd_neq by auto; split; assumption].
        rewrite nth_upd_eq by lia.
        destruct (option_map (sel mask) pmax) as [h|].
        * specialize (G2 h eq_refl). destruct (nth i h n0 <? _) eqn:C.
          -- destruct FS as [Ed FS]. split; intros l Hl; [apply (FS l Hl)|injection Hl as <-]. rewrite Ed. apply add_dn; auto.
          -- rewrite FS. split; intros l Hl; [specialize (G1 l Hl); apply add_up; auto|injection Hl as <-; exact C].
        * rewrite FS. split; intros l Hl; [specialize (G1 l Hl); apply add_up; auto|discriminate].
      + intros fp step Lf Hg Ls. apply gclip_inside; auto; intros; [apply LO|apply HI]; auto.
    - assert (T : forall q, (exists mask pmin pmax fp, mask_of (length p0) (k_pfix kw) = Ok mask /\ bc_opt (length p0) (k_pmin kw) = Ok pmin /\
        bc_opt (length p0) (k_pmax kw) = Ok pmax /\ length fp = nfree mask /\ G mask pmin pmax fp /\ q = put mask p0 fp) ->
        forall i, free i -> gwithin kw i (nth i q n0)).
      { intros q (mask & pmin & pmax & fp & Em & E1 & E2 & Lf & Hg & ->) i [Li Hf].
        destruct (mask_of_spec _ _ _ Em) as [Lm _].
        assert (Hi : nth i mask false = true).
        { rewrite (nth_indep _ false true) by lia. destruct (nth i mask true) eqn:Q; auto. exfalso. apply Hf.
          apply (mask_fixed _ _ _ _ Em Li). exact Q. }
        pose proof (sel_nth mask (put mask p0 fp) i n0 Hi) as SQ. rewrite sel_put in SQ by lia. rewrite <- SQ.
        destruct (Hg (rank_of mask i) (rank_lt _ _ Hi)) as [G1 G2]. split; intros l Hl.
        - rewrite Hl in E1. destruct pmin as [pl|].
          + destruct (gbc_opt_bnd _ _ _ E1) as (l0 & Hl0 & Hb). injection Hl0 as <-. rewrite <- (Hb i Li).
            rewrite <- (sel_nth mask pl i n0 Hi). apply G1. reflexivity.
          + unfold bc_opt in E1. destruct (bc_list _ l); discriminate.
        - rewrite Hl in E2. destruct pmax as [pl|].
          + destruct (gbc_opt_bnd _ _ _ E2) as (l0 & Hl0 & Hb). injection Hl0 as <-. rewrite <- (Hb i Li).
            rewrite <- (sel_nth mask pl i n0 Hi). apply G2. reflexivity.
          + unfold bc_opt in E2. destruct (bc_list _ l); discriminate. }
      split.
      + intros q Hq. rewrite Forall_forall in H1. apply T, H1, Hq.
      + intros m Hm. apply T, H2, Hm.
  Qed.
End Bounds.

(** ** The laws in double precision *)
Local Open Scope R_scope.
Lemma fin_n0 : fin n0. Proof. reflexivity. Qed.
Lemma f_irr (x : f64) : (x <? x)%K = false.
Proof. destruct x as [s|s| |s m e b]; try (destruct s; reflexivity); [reflexivity|]. rewrite flt_val by reflexivity. destruct (Rltb_spec (val (B754_finite s m e b)) (val (B754_finite s m e b))); [lra|reflexivity]. Qed.
Lemma fadd_cases (x y : f64) : fin x -> fin y -> fin (x + y)%K \/ (exists s, (x + y)%K = B754_infinity s /\ Bsign x = s /\ Bsign y = s).
Proof.
  intros Hx Hy. pose proof (Bplus_correct 53 1024 _ _ mode_NE x y Hx Hy) as C. destruct (Raux.Rlt_bool _ _).
  - left. unfold fin. cbn [nadd NumF]. apply C.
  - right. exists (Bsign x). destruct C as [C1 C2]. split; [|split; auto]. apply B2SF_inj. exact C1.
Qed.
Lemma fadd_zero_fin (x : f64) s : fin x -> fin (x + B754_zero s)%K.
Proof. destruct x as [sx|sx| |sx m e b]; try discriminate; intros _; [cbn; destruct (Bool.eqb sx s); reflexivity|reflexivity]. Qed.
Lemma sign_pos (y : f64) : fin y -> 0 <= val y -> Bsign y = true -> exists s, y = B754_zero s.
Proof.
  destruct y as [sy|sy| |sy m e b]; try discriminate; [eauto|]. cbn [Bsign]. intros _ H ->. exfalso. unfold val in H. cbn [B2R] in H.
  pose proof (Float_prop.F2R_lt_0 Zaux.radix2 (Defs.Float Zaux.radix2 (Z.neg m) e) ltac:(cbn; lia)). cbn [Zaux.cond_Zopp Z.opp] in H. lra.
Qed.
Lemma sign_neg (y : f64) : fin y -> val y <= 0 -> Bsign y = false -> exists s, y = B754_zero s.
Proof.
  destruct y as [sy|sy| |sy m e b]; try discriminate; [eauto|]. cbn [Bsign]. intros _ H ->. exfalso. unfold val in H. cbn [B2R] in H.
  pose proof (Float_prop.F2R_gt_0 Zaux.radix2 (Defs.Float Zaux.radix2 (Z.pos m) e) ltac:(cbn; lia)). cbn [Zaux.cond_Zopp] in H. lra.
Qed.
Lemma flt_false (x y : f64) : fin x -> fin y -> (x <? y)%K = false <-> val y <= val x.
Proof. intros Hx Hy. rewrite flt_val by auto. destruct (Rltb_spec (val x) (val y)); split; intros; try congruence; try lra; try discriminate. Qed.
Lemma f_add_up (x l d : f64) : (x <? l)%K = false -> (d <? n0)%K = false -> (x + d <? l)%K = false.
Proof.
  intros H1 H2. destruct (is_finite x) eqn:Fx, (is_finite d) eqn:Fd.
  - apply (flt_false d n0 Fd fin_n0) in H2. rewrite val_n0 in H2. destruct (fadd_cases x d Fx Fd) as [F|(s & E & S1 & S2)].
    + destruct l as [sl|sl| |sl m e b].
      * apply flt_false in H1; auto; try reflexivity. apply flt_false; auto; try reflexivity. rewrite (fadd_val _ _ F). rewrite <- (rnd_val (B754_zero sl)). apply rnd_le. lra.
      * destruct sl; [destruct (x + d)%K; try discriminate F; reflexivity|]. exfalso. destruct x as [sx|sx| |sx mx ex bx]; discriminate.
      * destruct (x + d)%K; reflexivity.
      * apply flt_false in H1; auto; try reflexivity. apply flt_false; auto; try reflexivity. rewrite (fadd_val _ _ F). rewrite <- (rnd_val (B754_finite sl m e b)). apply rnd_le. lra.
    + destruct s.
      * destruct (sign_pos d Fd H2 S2) as [s' ->]. pose proof (fadd_zero_fin x s' Fx) as F. rewrite E in F. discriminate.
      * rewrite E. destruct l as [sl|[|]| |sl m e b]; reflexivity.
  - destruct d as [sd|[|]| |sd md ed bd]; try discriminate Fd; try discriminate H2.
    + destruct x as [sx|sx| |sx mx ex bx]; try discriminate Fx; destruct l as [sl|[|]| |sl m e b]; reflexivity.
    + destruct x as [sx|sx| |sx mx ex bx]; reflexivity.
  - destruct x as [sx|[|]| |sx mx ex bx]; try discriminate Fx.
    + destruct l as [sl|[|]| |sl m e b]; try discriminate H1; destruct d as [sd|[|]| |sd md ed bd]; try discriminate Fd; reflexivity.
    + destruct l as [sl|[|]| |sl m e b]; destruct d as [sd|[|]| |sd md ed bd]; try discriminate Fd; reflexivity.
    + reflexivity.
  - destruct x as [sx|[|]| |sx mx ex bx]; try discriminate Fx; destruct d as [sd|[|]| |sd md ed bd]; try discriminate Fd; try discriminate H2; try reflexivity;
    destruct l as [sl|[|]| |sl m e b]; try discriminate H1; reflexivity.
Qed.
Lemma fneg1 (d : f64) : fin d -> fin (d * - n1)%K /\ val (d * - n1)%K = - val d.
Proof.
  intros F. assert (V1 : val (- n1)%K = -1). { rewrite val_opp. destruct (fofZ_val 1 ltac:(lia)) as [_ E]. change (val n1) with (val (nofZ 1)). rewrite E. lra. }
  pose proof (Bmult_correct 53 1024 _ _ mode_NE d (- n1)%K) as C. fold (val d) (val (- n1)%K) in C. rewrite V1 in C.
  change (Generic_fmt.round Zaux.radix2 (SpecFloat.fexp 53 1024) (round_mode mode_NE) (val d * -1)) with (rnd (val d * -1)) in C.
  assert (E : rnd (val d * -1) = - val d). { replace (val d * -1) with (val (- d)%K) by (rewrite val_opp; lra). rewrite rnd_val, val_opp. reflexivity. }
  rewrite E, Raux.Rlt_bool_true in C by (rewrite Rabs_Ropp; apply abs_B2R_lt_emax). destruct C as (C1 & C2 & _).
  split; [|exact C1]. unfold fin in *. cbn [nmul NumF]. rewrite C2, F. reflexivity.
Qed.
Lemma f_add_dn (x h d : f64) : (h <? x)%K = false -> (d <? n0)%K = false -> (h <? x + d * - n1)%K = false.
Proof.
  intros H1 H2. destruct (is_finite d) eqn:Fd.
  - apply (flt_false d n0 Fd fin_n0) in H2. rewrite val_n0 in H2. destruct (fneg1 d Fd) as [Fe Ve]. generalize dependent (d * - n1)%K. intros e' Fe Ve.
    destruct (is_finite x) eqn:Fx.
    + destruct (fadd_cases x e' Fx Fe) as [F|(s & E & S1 & S2)].
      * assert (V : val (x + e')%K <= val x) by (rewrite (fadd_val _ _ F); rewrite <- (rnd_val x) at 2; apply rnd_le; lra).
        destruct h as [sl|[|]| |sl m e b].
        -- apply flt_false in H1; auto; try reflexivity. apply flt_false; auto; try reflexivity. lra.
        -- exfalso. destruct x as [sx|sx| |sx mx ex bx]; discriminate.
        -- destruct (x + e')%K; try discriminate F; reflexivity.
        -- reflexivity.
        -- apply flt_false in H1; auto; try reflexivity. apply flt_false; auto; try reflexivity. lra.
      * destruct s.
        -- rewrite E. destruct h as [sl|[|]| |sl m e b]; reflexivity.
        -- destruct (sign_neg e' Fe ltac:(lra) S2) as [s' ->]. pose proof (fadd_zero_fin x s' Fx) as F. rewrite E in F. discriminate.
    + destruct x as [sx|[|]| |sx mx ex bx]; try discriminate Fx.
      * destruct h as [sl|[|]| |sl m e b]; destruct e' as [sd|[|]| |sd md ed bd]; try discriminate Fe; reflexivity.
      * destruct h as [sl|[|]| |sl m e b]; try discriminate H1; destruct e' as [sd|[|]| |sd md ed bd]; try discriminate Fe; reflexivity.
      * destruct h as [sl|[|]| |sl m e b]; reflexivity.
  - destruct d as [sd|[|]| |sd md ed bd]; try discriminate Fd; try discriminate H2.
    + change (B754_infinity false * - n1)%K with (B754_infinity true : f64).
      destruct x as [sx|[|]| |sx mx ex bx]; destruct h as [sl|[|]| |sl m e b]; reflexivity.
    + change (B754_nan * - n1)%K with (B754_nan : f64). destruct x as [sx|[|]| |sx mx ex bx]; destruct h as [sl|[|]| |sl m e b]; reflexivity.
Qed.
Lemma f_max_pos (b a : f64) : (n0 <=? a)%K = true -> (nmax b a <? n0)%K = false.
Proof.
  intros H. unfold nmax. destruct (b <? a)%K eqn:E.
  - destruct (is_finite a) eqn:Fa; [|destruct a as [s|[|]| |s m e p]; try discriminate; reflexivity]. apply flt_false; auto; [reflexivity|].
    rewrite fle_val in H by (auto; reflexivity). destruct (Rleb_spec (val n0) (val a)); [lra|discriminate].
  - destruct (is_finite a) eqn:Fa.
    + rewrite fle_val in H by (auto; reflexivity). destruct (Rleb_spec (val n0) (val a)); [|discriminate]. destruct (is_finite b) eqn:Fb.
      * apply flt_false in E; auto. apply flt_false; [exact Fb|exact fin_n0|]. rewrite val_n0 in *. lra.
      * destruct b as [s|[|]| |s m e p]; try discriminate; try reflexivity; destruct a as [s'|[|]| |s' m' e' p']; discriminate.
    + destruct a as [s|[|]| |s m e p]; try discriminate; destruct b as [s'|[|]| |s' m' e' p']; try discriminate; reflexivity.
Qed.
(* f is never called with a free parameter outside its bounds, and the result is not outside; nan is neither.
   (numpy's maximum and minimum give nan when the bound is nan, where the model keeps the number; nothing is
   outside such a bound.) *)
Theorem C97_bounds f solve inv fo fi cfg data p0 (kw : @lmkw f64) :
  solve_len solve ->
  let free i := (i < length p0)%nat /\ ~ fixed_par (length p0) (k_pfix kw) i in
  (forall i, free i -> gwithin kw i (nth i p0 n0)) ->
  (forall i, free i -> forall l h, k_pmin kw = Some l -> k_pmax kw = Some h -> (gbnd h i <? gbnd l i)%K = false) ->
  (forall i, free i -> (n0 <=? gstep_abs cfg kw i)%K = true) ->
  let out := levmar_run f solve inv fo fi cfg data p0 kw [] in
  (forall q, In q (snd out) -> forall i, free i -> gwithin kw i (nth i q n0)) /\
  (forall m, fst out = Ok (Some m) -> forall i, free i -> gwithin kw i (nth i (l_p m) n0)).
Proof. apply (bounds_gen f_irr f_add_up f_add_dn f_max_pos). Qed.
Print Assumptions C97_bounds.

(** ** Termination *)
(* lambda is a finite number, at least 2^e *)
Definition lam_ge (e : Z) (lam : f64) : Prop := fin lam /\ powerRZ 2 e <= val lam.
Lemma pow2_bpow e : powerRZ 2 e = Raux.bpow Zaux.radix2 e.
Proof. rewrite Raux.bpow_powerRZ. reflexivity. Qed.
Lemma sign_of_pos (x : f64) : 0 < val x -> Bsign x = false.
Proof.
  intros H. destruct (is_finite x) eqn:F; [|destruct x; try discriminate F; unfold val in H; cbn in H; lra].
  destruct (Bsign x) eqn:E; auto. destruct (sign_pos x F ltac:(lra) E) as [s ->]. unfold val in H. cbn in H. lra.
Qed.
Lemma lam_mul (lam g lx : f64) e : (-1074 <= e)%Z -> lam_ge e lam -> fin g -> 2 <= val g -> fin lx -> (lx <? lam * g)%K = false ->
  lam_ge (e + 1) (lam * g)%K /\ (e + 1 < 1024)%Z.
Proof.
  intros He [F V] Fg Vg Fx H. rewrite pow2_bpow in V. pose proof (Raux.bpow_gt_0 Zaux.radix2 e) as P.
  pose proof (Bmult_correct 53 1024 _ _ mode_NE lam g) as C. fold (val lam) (val g) in C.
  change (Generic_fmt.round Zaux.radix2 (SpecFloat.fexp 53 1024) (round_mode mode_NE) (val lam * val g)) with (rnd (val lam * val g)) in C.
  assert (B : Raux.bpow Zaux.radix2 (e + 1) <= rnd (val lam * val g)).
  { rewrite <- rnd_pow2 by lia. apply rnd_le. rewrite Raux.bpow_plus_1. change (IZR (Zaux.radix_val Zaux.radix2)) with 2.
    rewrite Rmult_comm. apply Rmult_le_compat; lra. }
  destruct (Raux.Rlt_bool _ _) eqn:E in C.
  - destruct C as (C1 & C2 & _). assert (FF : fin (lam * g)%K) by (unfold fin in *; cbn [nmul NumF]; rewrite C2, F, Fg; reflexivity).
    split; [split; [exact FF|]|].
    + rewrite pow2_bpow. unfold val. cbn [nmul NumF]. rewrite C1. exact B.
    + pose proof (val_lt_emax (lam * g)%K) as L. unfold val in L. cbn [nmul NumF] in L. rewrite C1 in L.
      apply (Raux.lt_bpow Zaux.radix2). eapply Rle_lt_trans; [exact B|]. eapply Rle_lt_trans; [apply Rle_abs|exact L].
  - exfalso. rewrite (sign_of_pos lam), (sign_of_pos g) in C by lra. 
    assert (I : (lam * g)%K = B754_infinity false) by (apply B2SF_inj; exact C). rewrite I in H. destruct lx; try discriminate Fx; discriminate H.
Qed.
Lemma lam_div (lam g : f64) a e : (-1074 <= e - a)%Z -> lam_ge e lam -> fin g -> 2 <= val g <= powerRZ 2 a -> lam_ge (e - a) (lam / g)%K.
Proof.
  intros He [F V] Fg [Vg Va]. rewrite pow2_bpow in V, Va. pose proof (Raux.bpow_gt_0 Zaux.radix2 e) as P. pose proof (Raux.bpow_gt_0 Zaux.radix2 a) as Pa.
  pose proof (Bdiv_correct 53 1024 _ _ mode_NE lam g) as C. fold (val lam) (val g) in C.
  change (Generic_fmt.round Zaux.radix2 (SpecFloat.fexp 53 1024) (round_mode mode_NE) (val lam / val g)) with (rnd (val lam / val g)) in C.
  specialize (C ltac:(lra)).
  assert (Q : 0 <= val lam / val g <= val lam).
  { split; [apply Rmult_le_pos; [lra|apply Rlt_le, Rinv_0_lt_compat; lra]|]. rewrite <- (Rmult_1_r (val lam)) at 2. apply Rmult_le_compat_l; [lra|]. rewrite <- Rinv_1. apply Rinv_le_contravar; lra. }
  rewrite Raux.Rlt_bool_true in C.
  - destruct C as (C1 & C2 & _). split; [unfold fin in *; cbn [ndiv NumF]; now rewrite C2|]. rewrite pow2_bpow. unfold val at 1. cbn [ndiv NumF]. rewrite C1.
    rewrite <- rnd_pow2 by lia. apply rnd_le. unfold Z.sub. rewrite Raux.bpow_plus, Raux.bpow_opp.
    apply Rmult_le_compat; [lra|apply Rlt_le, Rinv_0_lt_compat; lra|lra|]. apply Rinv_le_contravar; lra.
  - apply Rle_lt_trans with (Rabs (val lam)); [|apply val_lt_emax]. assert (0 <= rnd (val lam / val g)) by (rewrite <- rnd_0; apply rnd_le; lra).
    rewrite !Rabs_pos_eq by lra. rewrite <- (rnd_val lam) at 2. apply rnd_le. lra.
Qed.
Definition reach : nat := Z.to_nat 2099.
Lemma reach_val : Z.of_nat reach = 2099%Z. Proof. reflexivity. Qed.
Section Term.
  Variable f : @lfun f64.
  Variable solve : arr2 f64 -> list f64 -> res (list f64).
  Variables (data wgt : nd f64) (p0 : list f64) (pmask : list bool)
            (pmin pmax : option (list f64)) (prel pabs : list f64) (cfg : @lmcfg f64).
  Let gain := c_gain cfg.
  Variable a : Z.
  Hypothesis Ha : (0 <= a)%Z.
  Hypothesis Fgain : fin gain.
  Hypothesis Hgain : 2 <= val gain <= powerRZ 2 a.
  Hypothesis Flx : fin (c_lambdax cfg).
  Let it : nat := Nat.max (Z.to_nat (c_itmax cfg)) 1.
  Let np := npart f pmask.

  Lemma f_inner fuel : forall p1 c1 al be lam neval e m n,
    (-1074 <= e)%Z -> lam_ge e lam -> (e + Z.of_nat m = 1024)%Z -> (m < fuel)%nat ->
    hoare (short n) (lm_inner f solve data wgt p0 pmask pmin pmax cfg fuel p1 c1 al be lam neval)
      (fun r tr => exists p c lam' neval', r = Some (p, c, lam', neval') /\ lam_ge e lam' /\ short (n + m + 1) tr)
      (fun _ => short (n + m + 1)).
  Proof.
    induction fuel as [|fuel IH]; intros p1 c1 al be lam neval e m n He Hl Hm Hf; [lia|]. cbn [lm_inner].
    eapply h_bind; [apply h_lift_pure; unfold short; intros; lia|]. intros step. cbn beta. apply h_pre. intros _.
    eapply h_bind; [eapply h_conseq; [| | |apply c_next]; eauto; unfold short; intros; cbn in *; lia|]. intros v. cbn beta.
    eapply h_bind; [apply h_lift_pure; unfold short; intros; lia|]. intros c. cbn beta. apply h_pre. intros _.
    destruct (nltb c _ || _).
    - apply h_ret. intros tr Ht. do 4 eexists. split; [reflexivity|]. split; [exact Hl|]. unfold short in *. lia.
    - destruct (nltb (c_lambdax cfg) (lam * c_gain cfg)%K) eqn:E; [apply h_lift; [discriminate|]; unfold short; intros; lia|].
      destruct (lam_mul lam gain (c_lambdax cfg) e He Hl Fgain (proj1 Hgain) Flx E) as [Hl' He'].
      destruct m as [|m]; [lia|].
      eapply h_conseq; [| | |apply (IH p1 c1 al be _ (S neval) (e + 1)%Z m (S n))]; [auto| | |lia|exact Hl'|lia|lia].
      + intros r tr (p & c' & l' & ne & H1 & [H2 H2'] & H3). exists p, c', l', ne. split; [exact H1|]. split; [split; [exact H2|]|].
        * eapply Rle_trans; [|exact H2']. rewrite !pow2_bpow. apply Raux.bpow_le. lia.
        * unfold short in *. lia.
      + unfold short. intros; lia.
  Qed.
  Lemma f_outer fi : (reach <= fi)%nat -> forall fuel p chi lam k e neval n,
    (k < it)%nat -> (it - k <= fuel)%nat -> lam_ge e lam -> (-1074 + a * Z.of_nat (it - k) <= e)%Z -> (n <= k * (reach + 1 + np))%nat ->
    hoare (short n)
      (lm_outer f solve data wgt p0 pmask pmin pmax prel pabs cfg fuel fi p chi lam (Z.of_nat k) neval)
      (fun r tr => short (it * (reach + 1 + np)) tr /\ exists o, r = Some o)
      (fun _ => short (it * (reach + 1 + np))).
  Proof.
    intros Hfi. induction fuel as [|fuel IH]; intros p chi lam k e neval n Hk Hfu Hl He Hn; [lia|]. cbn [lm_outer].
    assert (Hr : Z.of_nat reach = 2099%Z) by apply reach_val.
    assert (He0 : (-1074 <= e)%Z) by (assert (0 <= a * Z.of_nat (it - k))%Z by (apply Z.mul_nonneg_nonneg; lia); lia).
    assert (He1 : (e < 1024)%Z).
    { apply (Raux.lt_bpow Zaux.radix2). destruct Hl as [_ V]. rewrite pow2_bpow in V. eapply Rle_lt_trans; [exact V|]. eapply Rle_lt_trans; [apply Rle_abs|apply val_lt_emax]. }
    assert (B : (n + 1 + np + reach <= it * (reach + 1 + np))%nat) by nia.
    eapply h_bind; [eapply h_conseq; [| | |apply c_both]; eauto; unfold short; intros; cbn beta in *; fold np in H; lia|]. intros fd. cbn beta. fold np.
    assert (HE : forall (e : exn) (tr : trace f64), short (n + 1 + np) tr -> short (it * (reach + 1 + np)) tr) by (unfold short; intros; lia).
    eapply h_bind; [apply h_lift_pure, HE|]. intros dm. cbn beta. apply h_pre. intros _.
    eapply h_bind; [apply h_lift_pure, HE|]. intros wd. cbn beta. apply h_pre. intros _.
    eapply h_bind with (R := fun _ => short (n + 1 + np)).
    { destruct chi; [apply h_ret; auto|]. eapply h_bind; [apply h_lift_pure, HE|]. intros c. cbn beta. apply h_pre. intros _. apply h_ret; auto. }
    intros cc. cbn beta.
    eapply h_bind; [apply h_lift_pure, HE|]. intros beta. cbn beta. apply h_pre. intros _.
    eapply h_bind; [apply h_lift_pure, HE|]. intros wdd. cbn beta. apply h_pre. intros _.
    eapply h_bind; [apply h_lift_pure, HE|]. intros alpha. cbn beta. apply h_pre. intros _.
    eapply h_bind; [apply h_lift_pure, HE|]. intros al. cbn beta. apply h_pre. intros _.
    destruct (neqb (fst cc) n0).
    { apply h_ret. intros tr Ht. split; [apply (HE TypeError), Ht|]. eexists. reflexivity. }
    eapply h_bind; [apply h_lift_pure, HE|]. intros be. cbn beta. apply h_pre. intros _.
    eapply h_bind; [eapply h_conseq; [intros ? H; exact H|intros ? ? H; exact H| |apply (f_inner fi p (fst cc) al be lam (S neval) e (Z.to_nat (1024 - e)) (n + 1 + np) He0 Hl)]|].
    { unfold short. intros; lia. }
    { lia. }
    { lia. }
    intros r. cbn beta. intros tr (p' & c' & lam' & neval' & -> & H2 & H3).
    destruct (nleb _ _).
    { cbn. split; [unfold short in *; lia|]. eexists. reflexivity. }
    destruct (Z.leb_spec (c_itmax cfg) (Z.of_nat k + 1)).
    { cbn. split; [unfold short in *; lia|]. eexists. reflexivity. }
    replace (Z.of_nat k + 1)%Z with (Z.of_nat (S k)) by lia.
    assert (Hd : (-1074 + a * Z.of_nat (it - S k) <= e - a)%Z) by (replace (it - k)%nat with (S (it - S k)) in He by lia; rewrite Nat2Z.inj_succ in He; lia).
    refine (IH p' (Some (c', snd cc)) _ (S k) (e - a)%Z neval' (n + 1 + np + reach)%nat _ _ _ Hd _ tr _).
    - lia.
    - lia.
    - apply lam_div; auto. assert (0 <= a * Z.of_nat (it - S k))%Z by (apply Z.mul_nonneg_nonneg; lia). lia.
    - nia.
    - unfold short in *. lia.
  Qed.
End Term.
Definition fpasses (cfg : @lmcfg f64) : nat := Nat.max (Z.to_nat (c_itmax cfg)) 1.
Definition fextra (f : @lfun f64) (p0 : list f64) : nat := match f with LPlain _ => length p0 | LGen _ => 0%nat end.
(* levmar ends, if lambda0 divided by gain in every pass does not underflow: 2 <= gain <= 2^a, 2^e <= lambda0
   and e - a*itmax >= -1074 *)
Theorem C98_terminates_partial f solve inv fo fi cfg data p0 kw a e :
  fin (c_gain cfg) -> fin (c_lambdax cfg) -> fin (c_lambda0 cfg) ->
  2 <= val (c_gain cfg) <= powerRZ 2 a -> powerRZ 2 e <= val (c_lambda0 cfg) -> (-1074 + a * Z.of_nat (fpasses cfg) <= e)%Z ->
  (fpasses cfg <= fo)%nat -> (2099 <= Z.of_nat fi)%Z ->
  let out := levmar_run f solve inv fo fi cfg data p0 kw [] in
  fst out <> Ok None /\ (Z.of_nat (length (snd out)) <= Z.of_nat (fpasses cfg) * (2100 + Z.of_nat (fextra f p0)))%Z.
Proof.
  intros Fg Fx F0 Hg H0 He Hfo Hfi out. unfold out.
  assert (Ha : (0 <= a)%Z).
  { destruct (Z.le_gt_cases 0 a); auto. exfalso. destruct Hg as [G1 G2]. rewrite pow2_bpow in G2. pose proof (Raux.bpow_lt Zaux.radix2 a 0 ltac:(lia)) as L. cbn in L. lra. }
  destruct (levmar_unfold f solve inv fo fi cfg data p0 kw) as [[x E]|(errs & pmin & pmax & prel & pabs & mask & E0 & Em & E1 & E2 & E3 & E4 & E)];
    rewrite E; [cbn [fst snd length]; split; [discriminate|apply Z.mul_nonneg_nonneg; lia]|].
  destruct (mask_of_spec _ _ _ Em) as [Lm _].
  assert (Hnp : (npart f mask <= fextra f p0)%nat) by (unfold npart, fextra; destruct f; [rewrite <- Lm; apply nfree_le|lia]).
  pose proof (f_outer f solve (nravel data) (wgt_of errs) p0 mask (option_map (sel mask) pmin) (option_map (sel mask) pmax)
     prel pabs cfg a Ha Fg Hg Fx fi ltac:(pose proof reach_val; lia) fo (sel mask p0) None (c_lambda0 cfg) 0 e 0 0) as T.
  fold (fpasses cfg) in T. change (Z.of_nat 0) with 0%Z in T.
  assert (P1 : (0 < fpasses cfg)%nat) by (unfold fpasses; lia).
  specialize (T P1 ltac:(lia) (conj F0 H0) ltac:(rewrite Nat.sub_0_r; lia) ltac:(lia) [] (Nat.le_refl 0)).
  pose proof reach_val as RV.
  assert (NB : (Z.of_nat (fpasses cfg * (reach + 1 + npart f mask)) <= Z.of_nat (fpasses cfg) * (2100 + Z.of_nat (fextra f p0)))%Z).
  { rewrite Nat2Z.inj_mul, !Nat2Z.inj_add, RV. apply Z.mul_le_mono_nonneg_l; lia. }
  destruct (lm_outer f solve _ _ _ _ _ _ _ _ _ _ _ _ _ _ _ _ []) as [[r|x] tr].
  - destruct T as (T1 & o & ->). unfold short in T1. cbn [lm_finish].
    destruct (inv (o_alpha o)) as [ai|]; [|cbn [fst snd]; split; [discriminate|lia]].
    destruct (spread mask ai) as [pc|]; cbn [fst snd]; (split; [discriminate|lia]).
  - unfold short in T. cbn [lm_finish fst snd]. split; [discriminate|lia].
Qed.
Print Assumptions C98_terminates_partial.

(** ** An endless loop *)
(* The model 1/p + p/c of a quantity observed twice as 0, with its derivative; chi2 is smallest at p^2 = c.
   Far from there a Gauss-Newton step doubles p.  Every pass divides lambda by gain, so lambda becomes 0 after
   some 320 passes; the first step that makes things worse is then repeated for ever: 0*gain is 0. *)
Section Hang.
  Context {K : Type} {NK : Num K}.
  Local Open Scope num_scope.
  Definition w_c : K := nofZ (10 ^ 80)%Z.
  Definition w_f (p : K) : K := n1 / p + p / w_c.
  Definition w_d (p : K) : K := - (n1 / (p * p)) + n1 / w_c.
  Definition w_gen : @lfun K :=
    LGen (fun _ p => let p := nth 0 p n0 in (Ok (Nd [2%nat] (fun _ => w_f p)), Ok (Nd [1%nat; 2%nat] (fun _ => w_d p)))).
  Definition w_solve (a : arr2 K) (b : list K) : res (list K) := Ok [nth 0 b n0 / at2 a 0 0].
  Definition w_inv (a : arr2 K) : res (arr2 K) := Ok (Arr2 1 1 (fun _ _ => n1 / at2 a 0 0)).
  Definition w_data : nd K := Nd [2%nat] (fun _ => n0).
  Definition w_p0 : K := n1 / nofZ (10 ^ 60)%Z.
  Definition w_kw : @lmkw K := LmKw None None None None None None.
  (* the default configuration, but for itmax = 400 *)
  Definition w_cfg : @lmcfg K :=
    LmCfg 400 (c_tol lm_default) (c_lambda0 lm_default) (c_lambdax lm_default) (c_gain lm_default) (c_prel lm_default) (c_pabs lm_default).
  (* the same computation with numbers *)
  Definition w_dm (p : K) : K := n0 - w_f p.
  Definition w_sum (x : K) : K := ksum 2 (fun _ => x).
  Definition w_w : K := n1 / (n1 * n1).
  Definition w_chi (p : K) : K := w_sum (w_w * w_dm p * w_dm p).
  Definition w_al (p : K) : K := w_sum (w_w * w_d p * w_d p).
  Definition w_be (p : K) : K := w_sum (w_d p * (w_w * w_dm p)).
  Definition w_try (p lam : K) : K := p + w_be p / (w_al p * (n1 + lam)).
  Definition w_ok (p chi lam : K) : bool := let p' := w_try p lam in (w_chi p' <? c1000001 * chi) || ((p' =? p) && true).
  Definition w_conv (chi chi' : K) : K := (chi - chi') / (chi + chi').
  (* n passes, the first step accepted in each; then a pass in which it is not and multiplying lambda has no effect *)
  Variable stuck : K -> bool.
  Fixpoint w_run (n : nat) (p chi lam : K) : bool :=
    match n with
    | O => negb (chi =? n0) && negb (w_ok p chi lam) && stuck lam
    | S n' => let p' := w_try p lam in let chi' := w_chi p' in
      negb (chi =? n0) && w_ok p chi lam && negb (w_conv chi chi' + w_conv chi chi' <=? c_tol w_cfg) && w_run n' p' chi' (lam / c_gain w_cfg)
    end.
  (* with the common subexpressions shared *)
  Fixpoint w_fast (c ic tol gain m w : K) (n : nat) (p f chi lam : K) : bool :=
    let d := - (n1 / (p * p)) + ic in
    let wdm := w * (n0 - f) in
    let p' := p + w_sum (d * wdm) / (w_sum (w * d * d) * (n1 + lam)) in
    let f' := n1 / p' + p' / c in
    let dm' := n0 - f' in
    let chi' := w_sum (w * dm' * dm') in
    let ok := (chi' <? m * chi) || ((p' =? p) && true) in
    match n with
    | O => negb (chi =? n0) && negb ok && stuck lam
    | S n' => let conv := (chi - chi') / (chi + chi') in
      negb (chi =? n0) && ok && negb (conv + conv <=? tol) && w_fast c ic tol gain m w n' p' f' chi' (lam / gain)
    end.
  Lemma w_fast_run n : forall p chi lam,
    w_fast w_c (n1 / w_c) (c_tol w_cfg) (c_gain w_cfg) c1000001 w_w n p (w_f p) chi lam = w_run n p chi lam.
  Proof.
    induction n as [|n IH]; intros p chi lam; [reflexivity|]. cbn [w_run]. rewrite <- IH. reflexivity.
  Qed.
  Definition w_wgt : nd K := Nd [2%nat] (fun _ => w_w).
  Notation inner fi p chi al be lam ne := (lm_inner w_gen w_solve (nravel w_data) (wgt_of (full [2%nat] n1)) [w_p0] [true] None None w_cfg fi p chi al be lam ne).
  Notation outer fo fi p chi lam k ne := (lm_outer w_gen w_solve (nravel w_data) (wgt_of (full [2%nat] n1)) [w_p0] [true] None None [c_prel w_cfg] [c_pabs w_cfg] w_cfg fo fi p chi lam k ne).
  Hypothesis Hstuck : forall lam, stuck lam = true -> lam * c_gain w_cfg = lam /\ (c_lambdax w_cfg <? lam) = false.
  Definition w_arr (x : K) : arr2 K := Arr2 1 1 (fun _ _ => x).
  Lemma inner_step fi p chi al be lam ne tr : at2 al 0 0 = w_al p -> be = [w_be p] ->
    inner (S fi) [p] chi al be lam ne tr =
      if w_ok p chi lam then (Ok (Some ([w_try p lam], w_chi (w_try p lam), lam, S ne)), tr ++ [[w_try p lam]])
      else if c_lambdax w_cfg <? lam * c_gain w_cfg then (Err LevmarError, tr ++ [[w_try p lam]])
      else inner fi [p] chi al be (lam * c_gain w_cfg) (S ne) (tr ++ [[w_try p lam]]).
  Proof.
    intros Ha ->.
    assert (Sv : w_solve (damped al lam) [w_be p] = Ok [w_be p / (w_al p * (n1 + lam))]) by (rewrite <- Ha; reflexivity).
    cbn [lm_inner]. rewrite Sv. transitivity ((if w_ok p chi lam then sret (Some ([w_try p lam], w_chi (w_try p lam), lam, S ne))
      else if c_lambdax w_cfg <? lam * c_gain w_cfg then slift (Err LevmarError)
      else inner fi [p] chi al [w_be p] (lam * c_gain w_cfg) (S ne)) (tr ++ [[w_try p lam]])); [reflexivity|].
    destruct (w_ok p chi lam); [reflexivity|]. destruct (_ <? _); reflexivity.
  Qed.
  Lemma inner_hang p chi al be lam : at2 al 0 0 = w_al p -> be = [w_be p] -> w_ok p chi lam = false -> stuck lam = true ->
    forall fi ne tr, fst (inner fi [p] chi al be lam ne tr) = Ok None.
  Proof.
    intros Ha Hb H1 H2. destruct (Hstuck _ H2) as [H3 H4]. induction fi as [|fi IH]; intros ne tr; [reflexivity|].
    rewrite inner_step, H1, H3, H4; auto.
  Qed.
  Definition w_A (p : K) : arr2 K :=
    let d := Nd [1%nat; 2%nat] (fun _ => w_d p) in
    match (let! wdd := nd_map2 nmul (wgt_of (full [2%nat] n1)) d in let! a := inner_nn wdd d in to_arr2 a)%res with
    | Ok a => a | Err _ => Arr2 0 0 (fun _ _ => n0) end.
  Definition w_rest fo fi chi chi0 al k : option (list K * K * K * nat) -> St K (option (@lmout K)) := fun r =>
     match r with
     | None => sret None
     | Some (p', chi', lam', ne') =>
       if w_conv chi chi' + w_conv chi chi' <=? c_tol w_cfg then sret (Some (LmOut p' chi' chi0 al k ne' lam'))
       else if (400 <=? k + 1)%Z then sret (Some (LmOut p' chi' chi0 al (k + 1) ne' (lam' / c_gain w_cfg)))
       else outer fo fi p' (Some (chi', chi0)) (lam' / c_gain w_cfg) (k + 1)%Z ne'
     end.
  Lemma outer_step fo fi p chi chi0 lam k ne tr : (chi =? n0) = false ->
    outer (S fo) fi [p] (Some (chi, chi0)) lam k ne tr =
    sbind (inner fi [p] chi (w_A p) [w_be p] lam (S ne)) (w_rest fo fi chi chi0 (w_A p) k) (tr ++ [[p]]).
  Proof.
    intros Hc. transitivity ((if chi =? n0 then sret (Some (LmOut [p] chi chi0 (w_A p) k (S ne) lam)) else
       sbind (inner fi [p] chi (w_A p) [w_be p] lam (S ne)) (w_rest fo fi chi chi0 (w_A p) k)) (tr ++ [[p]])); [reflexivity|]. now rewrite Hc.
  Qed.
  Lemma outer_first fo fi p lam k ne tr : outer fo fi [p] None lam k ne tr = outer fo fi [p] (Some (w_chi p, w_chi p)) lam k ne tr.
  Proof. destruct fo; reflexivity. Qed.
  Lemma outer_hang n : forall fo fi p chi chi0 lam k ne tr, (k + Z.of_nat n < 400)%Z -> w_run n p chi lam = true ->
    fst (outer fo fi [p] (Some (chi, chi0)) lam k ne tr) = Ok None.
  Proof.
    induction n as [|n IH]; intros [|fo] fi p chi chi0 lam k ne tr Hk H; try reflexivity; cbn [w_run] in H; apply andb_prop in H as [H H3].
    - apply andb_prop in H as [H1 H2]. apply negb_true_iff in H1, H2. rewrite outer_step by auto. unfold sbind.
      assert (I : fst (inner fi [p] chi (w_A p) [w_be p] lam (S ne) (tr ++ [[p]])) = Ok None) by (apply inner_hang; auto).
      destruct (inner _ _ _ _ _ _ _ _) as [r tr']. cbn [fst] in I. subst r. reflexivity.
    - apply andb_prop in H as [H H2]. apply andb_prop in H as [H0 H1]. apply negb_true_iff in H0, H2. rewrite outer_step by auto. unfold sbind.
      destruct fi as [|fi]; [reflexivity|]. rewrite inner_step, H1 by reflexivity. unfold w_rest at 1. cbv zeta in H2. rewrite H2.
      destruct (Z.leb_spec 400 (k + 1)); [lia|]. apply IH; [lia|exact H3].
  Qed.
  Lemma levmar_hang n fo fi : (Z.of_nat n < 400)%Z -> w_run n w_p0 (w_chi w_p0) (c_lambda0 w_cfg) = true ->
    fst (levmar_run w_gen w_solve w_inv fo fi w_cfg w_data [w_p0] w_kw []) = Ok None.
  Proof.
    intros Hn H. assert (I : fst (outer fo fi [w_p0] None (c_lambda0 w_cfg) 0%Z 0%nat []) = Ok None) by (rewrite outer_first; eapply outer_hang; [|exact H]; lia).
    assert (Q : levmar_run w_gen w_solve w_inv fo fi w_cfg w_data [w_p0] w_kw [] =
      lm_finish w_gen w_inv w_data [w_p0] [true] (outer fo fi [w_p0] None (c_lambda0 w_cfg) 0%Z 0%nat [])).
    { transitivity (sbind (outer fo fi [w_p0] None (c_lambda0 w_cfg) 0%Z 0%nat) (fun o => match o with
        | None => sret None
        | Some o => sbind (slift (w_inv (o_alpha o))) (fun ai => sbind (slift (spread [true] ai)) (fun pcov =>
           sret (Some (LmFit (put [true] [w_p0] (o_p o)) pcov (ndiv (o_chi2 o) (nofZ (ndof_of w_data [true]))) (ndof_of w_data [true]) (lisgenf w_gen)
                        (ndiv (o_chi20 o) (nofZ (ndof_of w_data [true]))) (o_niter o) (o_neval o) (o_lam o) [w_p0]))))
        end) []); [reflexivity|].
      unfold sbind, lm_finish. destruct (outer fo fi [w_p0] None _ _ _ _) as [[[o|]|x] tr]; reflexivity. }
    rewrite Q. destruct (outer fo fi [w_p0] None _ _ _ _) as [r tr]. cbn [fst] in I. subst r. reflexivity.
  Qed.
End Hang.

Definition f_stuck (lam : f64) : bool := match lam with B754_zero false => true | _ => false end.
Definition f_run (n : nat) : bool :=
  let c : f64 := w_c in let p : f64 := w_p0 in
  w_fast f_stuck c (n1 / c)%K (c_tol w_cfg) (c_gain w_cfg) c1000001 w_w n p (w_f p) (w_chi p) (c_lambda0 w_cfg).
Lemma f_run_eq n : f_run n = w_run f_stuck n w_p0 (w_chi w_p0) (c_lambda0 w_cfg).
Proof. unfold f_run. apply (w_fast_run f_stuck). Qed.
Lemma f_run_ok : f_run 332 = true.
Proof. vm_cast_no_check (eq_refl true). Qed.
Lemma f_stuck_ok (lam : f64) : f_stuck lam = true -> (lam * c_gain w_cfg)%K = lam /\ (c_lambdax w_cfg <? lam)%K = false.
Proof. destruct lam as [[|]| | |]; try discriminate. intros _. split; vm_compute; reflexivity. Qed.
(* gain > 1, lambda0 > 0 and lambdax are the defaults, and no amount of fuel suffices *)
Theorem C98_endless_refuted :
  @c_gain f64 w_cfg = nofZ 10 /\ @c_lambda0 f64 w_cfg = (n1 / nofZ 1000)%K /\ @c_lambdax f64 w_cfg = nofZ (10 ^ 12) /\ @c_itmax f64 w_cfg = 400%Z /\
  forall fo fi, fst (@levmar_run f64 NumF w_gen w_solve w_inv fo fi w_cfg w_data [w_p0] w_kw []) = Ok None.
Proof.
  repeat split. intros fo fi. apply (levmar_hang f_stuck f_stuck_ok 332); [lia|]. rewrite <- f_run_eq. exact f_run_ok.
Qed.
Print Assumptions C98_endless_refuted.

(** ** Examples *)
(* the default configuration meets the hypotheses of C98_terminates_partial: gain <= 2^4, lambda0 >= 2^-10 *)
Example ex_C98 : let cfg := @lm_default f64 NumF in
  fin (c_gain cfg) /\ fin (c_lambdax cfg) /\ fin (c_lambda0 cfg) /\ 2 <= val (c_gain cfg) <= powerRZ 2 4 /\
  powerRZ 2 (-10) <= val (c_lambda0 cfg) /\ (-1074 + 4 * Z.of_nat (fpasses cfg) <= -10)%Z.
Proof.
  cbv zeta. cbn [lm_default c_gain c_lambdax c_lambda0].
  destruct (fofZ_val 10 ltac:(lia)) as [F1 V1]. destruct (fofZ_val (10 ^ 12) ltac:(vm_compute; discriminate)) as [F2 V2].
  assert (F3 : fin (n1 / nofZ (10 ^ 3))%K) by (vm_compute; reflexivity).
  split; [exact F1|]. split; [exact F2|]. split; [exact F3|]. rewrite V1. split; [change (powerRZ 2 4) with (2 * (2 * (2 * (2 * 1)))); split; lra|]. split; [|vm_compute; discriminate].
  assert (L : (n1 / nofZ 1024 <=? n1 / nofZ (10 ^ 3))%K = true) by (vm_compute; reflexivity).
  assert (F4 : fin (n1 / nofZ 1024)%K) by (vm_compute; reflexivity).
  rewrite fle_val in L by auto. destruct (Rleb_spec (val (n1 / nofZ 1024)%K) (val (n1 / nofZ (10 ^ 3))%K)) as [H|]; [|discriminate].
  eapply Rle_trans; [|exact H]. apply Req_le. unfold val. rewrite <- SF2R_B2SF. replace (B2SF (n1 / nofZ 1024)%K) with (SpecFloat.S754_finite false 4503599627370496 (-62)) by (vm_compute; reflexivity).
  rewrite pow2_bpow. unfold SF2R, Defs.F2R. cbn [Defs.Fnum Defs.Fexp Zaux.cond_Zopp].
  change (Raux.bpow Zaux.radix2 (-10)) with (/ 1024). change (Raux.bpow Zaux.radix2 (-62)) with (/ 4611686018427387904). lra.
Qed.
(* f(p) = (p, 2p) and data (1, 2) with p0 = 1/2 and p <= 3/4: the fit ends at 3/4, after a trial there *)
Definition b_f : @lfun f64 := LPlain (fun _ p => let p := nth 0 p n0 in Ok (Nd [2%nat] (fun i => if (hd 0 i =? 0)%nat then p else (p + p)%K))).
Definition b_q (n : Z) : f64 := (nofZ n / nofZ 4)%K.
Definition b_kw : @lmkw f64 := LmKw None None None (Some [b_q 3]) None None.
Definition b_solve (a : arr2 f64) (b : list f64) : res (list f64) := Ok (map (fun x => (x / at2 a 0 0)%K) b).
Definition b_out := levmar_run b_f b_solve w_inv 5 5 lm_default (Nd [2%nat] (fun i => if (hd 0 i =? 0)%nat then b_q 4 else b_q 8)) [b_q 2] b_kw [].
Example ex_C97 : solve_len b_solve /\ gwithin b_kw 0 (b_q 2) /\ (n0 <=? gstep_abs lm_default b_kw 0)%K = true /\
  match fst b_out with Ok (Some m) => list_eqb (l_p m) [b_q 3] && (2 <? length (snd b_out))%nat | _ => false end = true.
Proof.
  split; [intros a b x H; injection H as <-; apply map_length|]. split; [|split; vm_compute; reflexivity].
  split; intros l H; [discriminate H|]. injection H as <-. vm_compute. reflexivity.
Qed.
