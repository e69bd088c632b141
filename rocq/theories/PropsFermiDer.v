(* C91: the derivative of the integral of order j is j times the integral of order
   j - 1, for each of the orders 1/2, 3/2, 5/2 and on the whole line but at 2, where
   the branches meet, to a relative error of 3e-10. *)
From Coq Require Import List Arith ZArith QArith Qreals Bool Lia Reals Lra.
From Verif Require Import Num PyBase NdArray RSum PolySign PolyDer Fermi FermiProofs PropsFermi.
Import ListNotations.
Open Scope R_scope.

(** ** The branches as real functions *)
Definition lo_fun (an ad : list Q) (x : R) : R := exp x * hornerQ an (exp x) / hornerQ ad (exp x).
Definition hi_fun (k : nat) (bn bd : list Q) (x : R) : R :=
  sqrt x * x ^ k * hornerQ bn (1 / (x * x)) / hornerQ bd (1 / (x * x)).
Definition fd_fun (k : nat) (an ad bn bd : list Q) (x : R) : R :=
  if Rlt_dec x 2 then lo_fun an ad x else hi_fun k bn bd x.

Lemma hornerQ_ev c z : intable_ok c = true -> hornerQ c z = ev (intable c) z / IZR (common c).
Proof.
  intros H. rewrite intable_ev by auto. assert (0 < IZR (common c)) by (apply IZR_lt; unfold common; lia).
  field. lra.
Qed.
Lemma common_pos c : 0 < IZR (common c).
Proof. apply IZR_lt; unfold common; lia. Qed.
Lemma hornerQ_der c z : intable_ok c = true ->
  derivable_pt_lim (hornerQ c) z (ev (pder (intable c)) z / IZR (common c)).
Proof.
  intros H. apply (der_ext _ (mult_real_fct (/ IZR (common c)) (ev (intable c))) _ _ 1); [lra| |].
  - intros y _. rewrite hornerQ_ev by auto. unfold mult_real_fct. field. pose proof (common_pos c). lra.
  - eapply der_eq; [|apply derivable_pt_lim_scal, ev_pder]. unfold Rdiv. ring.
Qed.

Lemma close_ratio d T L R eps : 0 < T -> 0 < R -> d * R = T * L -> Rabs (L - R) < eps * R ->
  Rabs (d - T) <= eps * T.
Proof.
  intros HT HR E H. replace (d - T) with (T / R * (L - R)).
  - rewrite Rabs_mult, (Rabs_right (T / R)).
    + apply Rle_trans with (T / R * (eps * R)); [|right; field; lra].
      apply Rmult_le_compat_l; [|lra]. apply Rlt_le, Rdiv_lt_0_compat; auto.
    + apply Rle_ge, Rlt_le, Rdiv_lt_0_compat; auto.
  - apply Rmult_eq_reg_r with R; [|lra]. replace (T / R * (L - R) * R) with (T * L - T * R) by (field; lra).
    rewrite <- E. ring.
Qed.

(* below 2: z (z P / Q)' against j z P1 / Q1; j = i - 1/2 *)
Definition lo_L (an ad an1 ad1 : list Q) : list Z :=
  let p := intable an in let q := intable ad in
  pscale (2 * common ad * common an1)
    (pmul (padd (pmul (padd p (0%Z :: pder p)) q) (pscale (-1) (0%Z :: pmul p (pder q)))) (intable ad1)).
Definition lo_R (i : Z) (an ad an1 ad1 : list Q) : list Z :=
  let q := intable ad in
  pscale ((2 * i - 1) * common ad1 * common an) (pmul (intable an1) (pmul q q)).
Lemma lo_ladder i fuel e N an ad an1 ad1 b x :
  (0 < i)%Z -> (0 < N)%Z -> (0 < e)%Z ->
  intable_ok an = true -> intable_ok ad = true -> intable_ok an1 = true -> intable_ok ad1 = true ->
  0 < hornerQ ad (exp x) -> 0 < hornerQ an1 (exp x) -> 0 < hornerQ ad1 (exp x) ->
  exp x <= Q2R b ->
  between fuel e N (lo_L an ad an1 ad1) (lo_R i an ad an1 ad1) 0 b = true ->
  exists d, derivable_pt_lim (lo_fun an ad) x d /\
    Rabs (d - (IZR i - 1 / 2) * lo_fun an1 ad1 x) <= IZR e / IZR N * ((IZR i - 1 / 2) * lo_fun an1 ad1 x).
Proof.
  intros Hi HN He I1 I2 I3 I4 Q0 P1 Q1 Hb B.
  set (z := exp x) in *. assert (Hz : 0 < z) by apply exp_pos.
  destruct (between_ok _ _ _ _ _ _ _ z HN He B ltac:(rewrite Q2R_0; lra)) as [RP RL].
  pose proof (common_pos an) as Da. pose proof (common_pos ad) as Db.
  pose proof (common_pos an1) as Dc. pose proof (common_pos ad1) as Dd.
  pose (P' := ev (pder (intable an)) z / IZR (common an)). pose (Q' := ev (pder (intable ad)) z / IZR (common ad)).
  exists ((((1 * hornerQ an z + z * P') * hornerQ ad z - Q' * (z * hornerQ an z)) / Rsqr (hornerQ ad z)) * z).
  split.
  - apply (derivable_pt_lim_comp exp (fun z => z * hornerQ an z / hornerQ ad z)).
    + apply derivable_pt_lim_exp.
    + apply (derivable_pt_lim_div (fun z => z * hornerQ an z) (hornerQ ad)).
      * apply (derivable_pt_lim_mult id (hornerQ an)); [apply derivable_pt_lim_id | now apply hornerQ_der].
      * now apply hornerQ_der.
      * fold z. lra.
  - assert (J : 0 < IZR i - 1 / 2) by (apply IZR_le with (n := 1%Z) in Hi || (assert (H1 : (1 <= i)%Z) by lia; apply IZR_le in H1); lra).
    eapply close_ratio; [| exact RP | | exact RL].
    + unfold lo_fun. fold z. apply Rmult_lt_0_compat; auto. apply Rdiv_lt_0_compat; auto. apply Rmult_lt_0_compat; auto.
    + unfold lo_fun. fold z. unfold lo_L, lo_R, P', Q'. cbv zeta.
      rewrite !ev_pscale, !ev_pmul, !ev_padd, ev_pscale. cbn [ev]. rewrite !ev_pmul, ev_padd. cbn [ev].
      rewrite !mult_IZR, minus_IZR, mult_IZR.
      rewrite !hornerQ_ev in * by auto.
      set (p := ev (intable an) z) in *. set (q := ev (intable ad) z) in *.
      set (p1 := ev (intable an1) z) in *. set (q1 := ev (intable ad1) z) in *.
      assert (q <> 0) by (intros E; rewrite E in Q0; unfold Rdiv in Q0; lra).
      assert (q1 <> 0) by (intros E; rewrite E in Q1; unfold Rdiv in Q1; lra).
      unfold Rsqr. field. repeat split; auto; lra.
Qed.

(* from 2 on: u = x^-2, d/dx (x^(k+1/2) P / Q) = x^(k-1/2) ((k + 1/2) P / Q - 2 u (P / Q)') *)
Definition hi_L (s : Z) (k : Z) (bn bd bn1 bd1 : list Q) : list Z :=
  let p := intable bn in let q := intable bd in
  pscale (s * common bd * common bn1)
    (pmul (padd (pscale (2 * k + 1) (pmul p q))
                (pscale (-4) (0%Z :: padd (pmul (pder p) q) (pscale (-1) (pmul p (pder q)))))) (intable bd1)).
Definition hi_R (s : Z) (k : Z) (bn bd bn1 bd1 : list Q) : list Z :=
  let q := intable bd in
  pscale (s * (2 * k - 1) * common bd1 * common bn) (pmul (intable bn1) (pmul q q)).
Lemma der_inv_sq x : 0 < x -> derivable_pt_lim (fun x => 1 / (x * x)) x (- (2 / (x * x * x))).
Proof.
  intros Hx. eapply der_eq; [|apply (derivable_pt_lim_div (fun _ => 1) (fun x => x * x))].
  4: nra. 2: apply derivable_pt_lim_const. 2: apply (derivable_pt_lim_mult id id); apply derivable_pt_lim_id.
  unfold Rsqr, id. field. lra.
Qed.
Lemma der_root_pow k x : 0 < x -> derivable_pt_lim (fun x => sqrt x * x ^ S k) x ((INR k + 3 / 2) * (sqrt x * x ^ k)).
Proof.
  intros Hx. assert (S0 : 0 < sqrt x) by (apply sqrt_lt_R0; auto).
  eapply der_eq; [|apply (derivable_pt_lim_mult sqrt (fun x => x ^ S k));
    [now apply derivable_pt_lim_sqrt | apply derivable_pt_lim_pow]].
  cbn [Nat.pred]. rewrite S_INR. cbn [pow].
  assert (E : x = sqrt x * sqrt x) by (rewrite sqrt_sqrt; lra).
  transitivity (x ^ k * (x / (2 * sqrt x) + sqrt x * (INR k + 1))); [field; lra|].
  replace (x / (2 * sqrt x)) with (sqrt x / 2); [field|]. rewrite E at 2. field. lra.
Qed.
Lemma hi_ladder s k fuel e N bn bd bn1 bd1 b x :
  (0 < N)%Z -> (0 < e)%Z -> (s = 1)%Z \/ (s = -1)%Z ->
  intable_ok bn = true -> intable_ok bd = true -> intable_ok bn1 = true -> intable_ok bd1 = true ->
  0 < x -> hornerQ bd (1 / (x * x)) <> 0 -> 0 < hornerQ bn1 (1 / (x * x)) / hornerQ bd1 (1 / (x * x)) ->
  hornerQ bd1 (1 / (x * x)) <> 0 -> 1 / (x * x) <= Q2R b ->
  between fuel e N (hi_L s (Z.of_nat (S k)) bn bd bn1 bd1) (hi_R s (Z.of_nat (S k)) bn bd bn1 bd1) 0 b = true ->
  exists d, derivable_pt_lim (hi_fun (S k) bn bd) x d /\
    Rabs (d - (INR k + 1 / 2) * hi_fun k bn1 bd1 x) <= IZR e / IZR N * ((INR k + 1 / 2) * hi_fun k bn1 bd1 x).
Proof.
  intros HN He Hs I1 I2 I3 I4 Hx Q0 PQ1 Q1 Hb B.
  set (u := 1 / (x * x)) in *. assert (Hu : 0 < u) by (apply Rdiv_lt_0_compat; nra).
  destruct (between_ok _ _ _ _ _ _ _ u HN He B ltac:(rewrite Q2R_0; lra)) as [RP RL].
  pose proof (common_pos bn) as Da. pose proof (common_pos bd) as Db.
  pose proof (common_pos bn1) as Dc. pose proof (common_pos bd1) as Dd.
  assert (S0 : 0 < sqrt x) by (apply sqrt_lt_R0; auto).
  assert (X0 : 0 < x ^ k) by (apply pow_lt; auto).
  pose (P' := ev (pder (intable bn)) u / IZR (common bn)). pose (Q' := ev (pder (intable bd)) u / IZR (common bd)).
  assert (DP : forall c, intable_ok c = true -> derivable_pt_lim (fun x => hornerQ c (1 / (x * x))) x
     (ev (pder (intable c)) u / IZR (common c) * - (2 / (x * x * x)))).
  { intros c Ic. apply (derivable_pt_lim_comp (fun x => 1 / (x * x)) (hornerQ c)); [now apply der_inv_sq|].
    fold u. now apply hornerQ_der. }
  eexists. split.
  - apply (derivable_pt_lim_div (fun x => sqrt x * x ^ S k * hornerQ bn (1 / (x * x))) (fun x => hornerQ bd (1 / (x * x)))).
    + apply (derivable_pt_lim_mult (fun x => sqrt x * x ^ S k) (fun x => hornerQ bn (1 / (x * x)))).
      * now apply der_root_pow.
      * now apply DP.
    + now apply DP.
    + exact Q0.
  - cbv beta. fold u. assert (J : 0 <= INR k) by apply pos_INR.
    eapply close_ratio; [| exact RP | | exact RL].
    + unfold hi_fun. fold u. unfold Rdiv at 2. rewrite Rmult_assoc.
      apply Rmult_lt_0_compat; [lra|]. apply Rmult_lt_0_compat; [|exact PQ1]. now apply Rmult_lt_0_compat.
    + unfold hi_fun. fold u. unfold hi_L, hi_R. cbv zeta.
      rewrite !ev_pscale, !ev_pmul, !ev_padd, !ev_pscale. cbn [ev]. rewrite ev_padd, ev_pscale, !ev_pmul.
      rewrite !mult_IZR, minus_IZR, plus_IZR, !mult_IZR, <- INR_IZR_INZ, S_INR.
      rewrite !hornerQ_ev in * by auto.
      set (p := ev (intable bn) u) in *. set (q := ev (intable bd) u) in *.
      set (p1 := ev (intable bn1) u) in *. set (q1 := ev (intable bd1) u) in *.
      assert (q <> 0) by (intros E; apply Q0; rewrite E; unfold Rdiv; ring).
      assert (q1 <> 0) by (intros E; apply Q1; rewrite E; unfold Rdiv; ring).
      cbn [pow]. unfold Rsqr, u. destruct Hs as [-> | ->]; field; repeat split; auto; lra.
Qed.

(** ** The functions on the whole line *)
(* what the checks of PropsFermi.v say about a set of tables *)
Definition tables_ok (s : bool) (an ad bn bd : list Q) : bool :=
  (2 <=? length an)%nat && (2 <=? length ad)%nat && (2 <=? length bn)%nat && (2 <=? length bd)%nat &&
  allpos an && allpos ad && chk s 12 bn 0 (1 # 4) && chk s 12 bd 0 (1 # 4) &&
  intable_ok an && intable_ok ad && intable_ok bn && intable_ok bd.
Lemma allpos_horner c z : (2 <=? length c)%nat = true -> allpos c = true -> 0 < z -> 0 < hornerQ c z.
Proof.
  intros L A Hz. rewrite <- horner_Q. apply horner_pos; auto; [|now apply tab_pos].
  intros E; apply map_eq_nil in E; rewrite E in L; discriminate.
Qed.
Lemma tables_facts s an ad bn bd : tables_ok s an ad bn bd = true ->
  (2 <= length an)%nat /\ (2 <= length ad)%nat /\ (2 <= length bn)%nat /\ (2 <= length bd)%nat /\
  (forall z, 0 < z -> 0 < hornerQ an z) /\ (forall z, 0 < z -> 0 < hornerQ ad z) /\
  (forall x, 2 <= x -> hornerQ bd (1 / (x * x)) <> 0) /\
  (forall x, 2 <= x -> 0 < hornerQ bn (1 / (x * x)) / hornerQ bd (1 / (x * x))) /\
  intable_ok an = true /\ intable_ok ad = true /\ intable_ok bn = true /\ intable_ok bd = true.
Proof.
  unfold tables_ok. intros H. repeat (apply andb_true_iff in H; destruct H as [H ?]).
  split; [now apply Nat.leb_le|]. do 3 (split; [now apply Nat.leb_le|]).
  split; [intros; now apply allpos_horner|]. split; [intros; now apply allpos_horner|].
  assert (S : forall x, 2 <= x -> (if s then 0 < hornerQ bn (1 / (x * x)) else hornerQ bn (1 / (x * x)) < 0) /\
     (if s then 0 < hornerQ bd (1 / (x * x)) else hornerQ bd (1 / (x * x)) < 0)).
  { intros x Hx. apply pow_neg2_range in Hx. split; eapply chk_ok; eauto. }
  split; [|split; [|auto]].
  - intros x Hx. destruct (S x Hx) as [_ S2]. destruct s; lra.
  - intros x Hx. destruct (S x Hx) as [S1 S2]. destruct s.
    + now apply Rdiv_lt_0_compat.
    + replace (hornerQ bn (1 / (x * x)) / hornerQ bd (1 / (x * x))) with ((- hornerQ bn (1 / (x * x))) / - hornerQ bd (1 / (x * x))) by (field; lra).
      apply Rdiv_lt_0_compat; lra.
Qed.
Lemma fd_fun_elementwise s k f an ad bn bd : tables_ok s an ad bn bd = true ->
  (forall x, 2 <= x -> f x = x ^ k) ->
  elementwise (fd_template an ad bn bd f) (fun x => Some (fd_fun k an ad bn bd x)).
Proof.
  intros H Hf x. destruct (tables_facts _ _ _ _ _ H) as (L1 & L2 & L3 & L4 & A1 & A2 & B2 & _).
  destruct (fd_template_ok an ad bn bd f x L1 L2 L3 L4) as (y & E & S & G).
  exists y. split; [exact E|]. split; [exact S|]. intros idx Hi. rewrite G by auto.
  unfold fd_elem, fd_fun. rewrite !horner_Q. destruct (Rltb_spec (get x idx) 2) as [L|L], (Rlt_dec (get x idx) 2); try contradiction.
  - unfold odiv. pose proof (A2 _ (exp_pos (get x idx))). destruct (Reqb_spec (hornerQ ad (exp (get x idx))) 0); [lra|]. reflexivity.
  - cbv zeta. unfold odiv. pose proof (B2 (get x idx) ltac:(lra)). destruct (Reqb_spec (hornerQ bd (1 / (get x idx * get x idx))) 0); [lra|].
    unfold hi_fun. rewrite Hf by lra. reflexivity.
Qed.
Lemma exp_below x : x < 2 -> exp x <= Q2R (15 # 2).
Proof.
  intros H. apply exp_increasing in H. pose proof exp2_range. unfold Q2R. cbn [Qnum Qden]. lra.
Qed.
Lemma fd_fun_lo k an ad bn bd x d : x < 2 -> derivable_pt_lim (lo_fun an ad) x d ->
  derivable_pt_lim (fd_fun k an ad bn bd) x d.
Proof.
  intros Hx. apply der_ext with (2 - x); [lra|]. intros y Hy. apply Rabs_def2 in Hy.
  unfold fd_fun. destruct (Rlt_dec y 2); [reflexivity|lra].
Qed.
Lemma fd_fun_hi k an ad bn bd x d : 2 < x -> derivable_pt_lim (hi_fun k bn bd) x d ->
  derivable_pt_lim (fd_fun k an ad bn bd) x d.
Proof.
  intros Hx. apply der_ext with (x - 2); [lra|]. intros y Hy. apply Rabs_def2 in Hy.
  unfold fd_fun. destruct (Rlt_dec y 2); [lra|reflexivity].
Qed.
Definition ladder_ok (s : Z) (k : nat) (e N : Z) (an ad bn bd an1 ad1 bn1 bd1 : list Q) : bool :=
  between 12 e N (lo_L an ad an1 ad1) (lo_R (Z.of_nat (S k)) an ad an1 ad1) 0 (15 # 2) &&
  between 12 e N (hi_L s (Z.of_nat (S k)) bn bd bn1 bd1) (hi_R s (Z.of_nat (S k)) bn bd bn1 bd1) 0 (1 # 4).

(** ** Spec *)
(* the derivative of g is j h, up to a relative error eps, at all points but 2 *)
Definition nearly_derivative (g h : R -> R) (j eps : R) : Prop :=
  forall x, x <> 2 -> exists d, derivable_pt_lim g x d /\ Rabs (d - j * h x) <= eps * (j * h x).
Lemma ladder s s' s1 k e N an ad bn bd an1 ad1 bn1 bd1 :
  (0 < N)%Z -> (0 < e)%Z -> (s = 1)%Z \/ (s = -1)%Z ->
  tables_ok s' an ad bn bd = true -> tables_ok s1 an1 ad1 bn1 bd1 = true ->
  ladder_ok s k e N an ad bn bd an1 ad1 bn1 bd1 = true ->
  nearly_derivative (fd_fun (S k) an ad bn bd) (fd_fun k an1 ad1 bn1 bd1) (INR k + 1 / 2) (IZR e / IZR N).
Proof.
  intros HN He Hs T T1 H. unfold ladder_ok in H. apply andb_true_iff in H. destruct H as [HL HH].
  destruct (tables_facts _ _ _ _ _ T) as (_ & _ & _ & _ & A1 & A2 & B2 & B1 & I1 & I2 & I3 & I4).
  destruct (tables_facts _ _ _ _ _ T1) as (_ & _ & _ & _ & A1' & A2' & B2' & B1' & I1' & I2' & I3' & I4').
  intros x Hx. destruct (Rlt_dec x 2) as [L|L].
  - destruct (lo_ladder (Z.of_nat (S k)) 12 e N an ad an1 ad1 (15 # 2) x) as (d & Dd & E); auto using exp_pos, exp_below; try lia.
    exists d. split; [now apply fd_fun_lo|]. unfold fd_fun. destruct (Rlt_dec x 2); [|contradiction].
    rewrite <- INR_IZR_INZ, S_INR in E. replace (INR k + 1 - 1 / 2) with (INR k + 1 / 2) in E by field. exact E.
  - assert (2 < x) by lra. pose proof (pow_neg2_range x ltac:(lra)) as [_ U].
    destruct (hi_ladder s k 12 e N bn bd bn1 bd1 (1 # 4) x) as (d & Dd & E); auto; try lra.
    + apply B2; lra.
    + apply B1'; lra.
    + apply B2'; lra.
    + exists d. split; [now apply fd_fun_hi|]. unfold fd_fun. destruct (Rlt_dec x 2); [contradiction|]. exact E.
Qed.

(** ** C91 *)
Theorem C91_derivatives : exists gm12 g12 g32 g52 : R -> R,
  elementwise fdm12 (fun x => Some (gm12 x)) /\ elementwise fd12 (fun x => Some (g12 x)) /\
  elementwise fd32 (fun x => Some (g32 x)) /\ elementwise fd52 (fun x => Some (g52 x)) /\
  nearly_derivative g12 gm12 (1 / 2) (3 / 10 ^ 10) /\
  nearly_derivative g32 g12 (3 / 2) (3 / 10 ^ 10) /\
  nearly_derivative g52 g32 (5 / 2) (3 / 10 ^ 10).
Proof.
  exists (fd_fun 0 fdm12_anum fdm12_aden fdm12_bnum fdm12_bden), (fd_fun 1 fd12_anum fd12_aden fd12_bnum fd12_bden),
    (fd_fun 2 fd32_anum fd32_aden fd32_bnum fd32_bden), (fd_fun 3 fd52_anum fd52_aden fd52_bnum fd52_bden).
  assert (T0 : tables_ok false fdm12_anum fdm12_aden fdm12_bnum fdm12_bden = true) by (vm_compute; reflexivity).
  assert (T1 : tables_ok true fd12_anum fd12_aden fd12_bnum fd12_bden = true) by (vm_compute; reflexivity).
  assert (T2 : tables_ok true fd32_anum fd32_aden fd32_bnum fd32_bden = true) by (vm_compute; reflexivity).
  assert (T3 : tables_ok true fd52_anum fd52_aden fd52_bnum fd52_bden = true) by (vm_compute; reflexivity).
  assert (E : IZR 3 / IZR (10 ^ 10) = 3 / 10 ^ 10) by (rewrite (pow_IZR 10 10); reflexivity). rewrite <- E. clear E.
  replace (1 / 2) with (INR 0 + 1 / 2) by (cbn; field). replace (3 / 2) with (INR 1 + 1 / 2) by (cbn; field).
  replace (5 / 2) with (INR 2 + 1 / 2) by (cbn; field).
  split; [apply (fd_fun_elementwise false); [exact T0|intros; cbn; ring]|].
  split; [apply (fd_fun_elementwise true); [exact T1|intros; cbn; ring]|].
  split; [apply (fd_fun_elementwise true); [exact T2|intros; cbn; ring]|].
  split; [apply (fd_fun_elementwise true); [exact T3|intros; cbn; ring]|].
  split; [apply (ladder (-1) true false); [lia|lia|lia|exact T1|exact T0|vm_compute; reflexivity]|].
  split; [apply (ladder 1 true true); [lia|lia|lia|exact T2|exact T1|vm_compute; reflexivity]|].
  apply (ladder 1 true true); [lia|lia|lia|exact T3|exact T2|vm_compute; reflexivity].
Qed.
Print Assumptions C91_derivatives.

(* in particular the derivative of fd12 at 3 is positive *)
Example ex_C91 : exists g12 d, elementwise fd12 (fun x => Some (g12 x)) /\ derivable_pt_lim g12 3 d /\ 0 < d.
Proof.
  destruct C91_derivatives as (gm12 & g12 & _ & _ & Em & E & _ & _ & D & _).
  destruct (D 3) as (d & Dd & B); [lra|]. exists g12, d. split; [exact E|split; [exact Dd|]].
  destruct C78_positive as (P & _). destruct (P (Nd [] (fun _ => 3))) as (y & Ey & _ & G).
  destruct (Em (Nd [] (fun _ => 3))) as (y' & Ey' & _ & G'). rewrite Ey in Ey'. injection Ey' as <-.
  destruct (G []) as (v & Ev & V); [constructor|]. specialize (G' [] ltac:(constructor)). rewrite Ev in G'. injection G' as ->.
  cbn in V. unfold Rabs in B. destruct (Rcase_abs _); lra.
Qed.
