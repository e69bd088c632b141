(* Property C85: density of the points produced by the direct formulas of
   randomx.py.  A point is a function F of independent draws in [0, 1); its
   density is uniform when the area (length, volume) element of F is constant,
   i.e. the Jacobian determinant, the speed, or the length of the cross product of
   the partial derivatives, does not depend on the draws. *)
From Coq Require Import List Arith ZArith Bool Lia Reals Lra.
From Verif Require Import Num PyBase NdArray NdLemmas RandomX RandomXProofs PropsRandomX PropsRotation.
Import ListNotations.
Open Scope R_scope.

(** ** Partial derivatives *)
Definition D1 (f : R -> R -> R) x y d := derivable_pt_lim (fun x => f x y) x d.
Definition D2 (f : R -> R -> R) x y d := derivable_pt_lim (f x) y d.
(* the map (f, g) of the plane scales areas by the factor k at (x, y) *)
Definition area2 (f g : R -> R -> R) x y k : Prop :=
  exists fx fy gx gy, D1 f x y fx /\ D2 f x y fy /\ D1 g x y gx /\ D2 g x y gy /\
    Rabs (fx * gy - fy * gx) = k.
(* the surface (f, g, h) of space has area element k at (x, y) *)
Definition area3 (f g h : R -> R -> R) x y k : Prop :=
  exists fx fy gx gy hx hy, D1 f x y fx /\ D2 f x y fy /\ D1 g x y gx /\ D2 g x y gy /\
    D1 h x y hx /\ D2 h x y hy /\
    sqrt ((gx * hy - hx * gy) ^ 2 + (hx * fy - fx * hy) ^ 2 + (fx * gy - gx * fy) ^ 2) = k.

Lemma der_ext f g x d : (forall y, f y = g y) -> derivable_pt_lim f x d -> derivable_pt_lim g x d.
Proof.
  intros E H eps He. destruct (H eps He) as (del & Hd). exists del. intros h Hh Hl.
  rewrite <- !E. now apply Hd.
Qed.
Lemma der_val f x d e : d = e -> derivable_pt_lim f x d -> derivable_pt_lim f x e.
Proof. now intros ->. Qed.
Lemma der_lin a b x : derivable_pt_lim (fun t => a * t + b) x a.
Proof.
  apply (der_ext (plus_fct (mult_real_fct a id) (fct_cte b))).
  { intros y. unfold plus_fct, mult_real_fct, fct_cte, id. reflexivity. }
  apply (der_val _ _ (a * 1 + 0)); [ring|].
  apply derivable_pt_lim_plus; [apply derivable_pt_lim_scal, derivable_pt_lim_id|apply derivable_pt_lim_const].
Qed.
Lemma der_scal c f x d : derivable_pt_lim f x d -> derivable_pt_lim (fun t => c * f t) x (c * d).
Proof. intros H. apply (der_ext (mult_real_fct c f)); [reflexivity|]. now apply derivable_pt_lim_scal. Qed.
Lemma der_comp g f x d e : derivable_pt_lim f x d -> derivable_pt_lim g (f x) e ->
  derivable_pt_lim (fun t => g (f t)) x (e * d).
Proof. intros H K. apply (der_ext (comp g f)); [reflexivity|]. now apply derivable_pt_lim_comp. Qed.
Lemma der_cos_lin a x : derivable_pt_lim (fun t => cos (a * t)) x (- sin (a * x) * a).
Proof.
  apply (der_comp cos (fun t => a * t)); [|apply derivable_pt_lim_cos].
  apply (der_ext (fun t => a * t + 0)); [intros; ring|]. apply der_lin.
Qed.
Lemma der_sin_lin a x : derivable_pt_lim (fun t => sin (a * t)) x (cos (a * x) * a).
Proof.
  apply (der_comp sin (fun t => a * t)); [|apply derivable_pt_lim_sin].
  apply (der_ext (fun t => a * t + 0)); [intros; ring|]. apply der_lin.
Qed.
Lemma der_sqrt x : 0 < x -> derivable_pt_lim sqrt x (/ (2 * sqrt x)).
Proof. intros H. now apply derivable_pt_lim_sqrt. Qed.
Lemma der_mulr f c x d : derivable_pt_lim f x d -> derivable_pt_lim (fun t => f t * c) x (d * c).
Proof.
  intros H. apply (der_ext (fun t => c * f t)); [intros; ring|]. apply (der_val _ _ (c * d)); [ring|].
  now apply der_scal.
Qed.

(** ** The maps used by the code *)
(* the direct branch of incircle: the point of the draws t, z *)
Definition disc_x t z := sqrt z * cos (t * (2 * PI)).
Definition disc_y t z := sqrt z * sin (t * (2 * PI)).
Theorem C85_incircle_map rnd sz : unit_src rnd -> valid_size sz -> (size (lead sz) < 330)%nat ->
  exists a, incircle rnd 0 sz = Some (Ok a) /\ forall idx, inb idx (lead sz) ->
    let u := rnd 0%nat (2%nat :: lead sz ++ [1%nat]) in
    let t := get u (0%nat :: idx ++ [0%nat]) in
    let z := get u (1%nat :: idx ++ [0%nat]) in
    pt a idx 0 = disc_x t z /\ pt a idx 1 = disc_y t z.
Proof.
  intros U V. pose proof (proj1 (valid_neg sz) V) as N. rewrite lead_dims. unfold incircle.
  rewrite <- (size_dims _ N). intros H. destruct (Z.ltb_spec (Z.of_nat (size (dims (size_tuple sz)))) 330); [|lia].
  destruct (incircle_direct_ok rnd _ U N) as (a & E & _ & G). exists a. split; [now rewrite E|].
  intros idx Hi. destruct (G idx Hi) as (t & z & _ & _ & Et & Ez & Ex & Ey).
  cbn zeta. change (2%nat :: dims (size_tuple sz) ++ [1%nat]) with ([2%nat] ++ dims (size_tuple sz) ++ [1%nat]).
  rewrite <- Et, <- Ez. auto.
Qed.

(* constant area element PI, the area of the disc *)
Theorem C85_incircle_area t z : 0 < z -> area2 disc_x disc_y t z PI.
Proof.
  intros Hz. pose proof (sqrt_lt_R0 z Hz) as Hs.
  exists (sqrt z * (- sin (2 * PI * t) * (2 * PI))), (/ (2 * sqrt z) * cos (t * (2 * PI))),
    (sqrt z * (cos (2 * PI * t) * (2 * PI))), (/ (2 * sqrt z) * sin (t * (2 * PI))).
  unfold D1, D2, disc_x, disc_y. repeat split.
  - apply der_scal. apply (der_ext (fun t => cos (2 * PI * t))); [intros; f_equal; ring|]. apply der_cos_lin.
  - apply der_mulr. now apply der_sqrt.
  - apply der_scal. apply (der_ext (fun t => sin (2 * PI * t))); [intros; f_equal; ring|]. apply der_sin_lin.
  - apply der_mulr. now apply der_sqrt.
  - rewrite (Rmult_comm (2 * PI) t). pose proof (sin2_cos2 (t * (2 * PI))) as P. unfold Rsqr in P.
    replace (sqrt z * (- sin (t * (2 * PI)) * (2 * PI)) * (/ (2 * sqrt z) * sin (t * (2 * PI))) -
      / (2 * sqrt z) * cos (t * (2 * PI)) * (sqrt z * (cos (t * (2 * PI)) * (2 * PI))))
      with (- PI * (sin (t * (2 * PI)) * sin (t * (2 * PI)) + cos (t * (2 * PI)) * cos (t * (2 * PI)))) by (field; lra).
    rewrite P, Rmult_1_r, Rabs_Ropp. apply Rabs_pos_eq, Rlt_le, PI_RGT_0.
Qed.
(* and the map is one to one from [0,1) x (0,1) onto the disc without its centre *)
Lemma angle_ex x y : x ^ 2 + y ^ 2 = 1 -> exists th, 0 <= th < 2 * PI /\ x = cos th /\ y = sin th.
Proof.
  intros H. pose proof PI_RGT_0 as P0. assert (Hx : -1 <= x <= 1) by nra.
  pose proof (acos_bound x) as Hb.
  assert (Hs : sqrt (1 - Rsqr x) = Rabs y).
  { replace (1 - Rsqr x) with (Rsqr y) by (unfold Rsqr; lra). apply sqrt_Rsqr_abs. }
  destruct (Rle_lt_dec 0 y) as [Hy|Hy].
  - exists (acos x). split; [lra|]. rewrite cos_acos, sin_acos, Hs by auto.
    split; auto. now rewrite Rabs_pos_eq.
  - exists (2 * PI - acos x). assert (x < 1) by nra.
    assert (0 < acos x).
    { destruct (Req_dec (acos x) 0) as [E|E]; [|lra]. exfalso.
      assert (cos (acos x) = 1) by (rewrite E; apply cos_0). rewrite cos_acos in H1 by auto. lra. }
    split; [lra|]. rewrite cos_minus, sin_minus, cos_2PI, sin_2PI, cos_acos, sin_acos, Hs by auto.
    rewrite Rabs_left by auto. split; ring.
Qed.
Lemma angle_inj a b : 0 <= a < 2 * PI -> 0 <= b < 2 * PI -> cos a = cos b -> sin a = sin b -> a = b.
Proof.
  intros Ha Hb Hc Hs. pose proof PI_RGT_0 as P0.
  assert (Q : forall t, 0 <= t < 2 * PI -> t <= PI -> 0 <= sin t) by (intros; apply sin_ge_0; lra).
  assert (Q' : forall t, 0 <= t < 2 * PI -> PI < t -> sin t < 0) by (intros; apply sin_lt_0; lra).
  destruct (Rle_lt_dec a PI) as [La|La]; destruct (Rle_lt_dec b PI) as [Lb|Lb].
  - apply cos_inj; auto; lra.
  - pose proof (Q a Ha La). pose proof (Q' b Hb Lb). lra.
  - pose proof (Q b Hb Lb). pose proof (Q' a Ha La). lra.
  - assert (2 * PI - a = 2 * PI - b); [|lra]. apply cos_inj; try lra.
    rewrite !cos_minus, cos_2PI, sin_2PI, Hc, Hs. reflexivity.
Qed.
Theorem C85_incircle_onto x y : 0 < x ^ 2 + y ^ 2 < 1 ->
  exists t z, (0 <= t < 1 /\ 0 < z < 1 /\ x = disc_x t z /\ y = disc_y t z) /\
    forall t' z', 0 <= t' < 1 -> 0 < z' < 1 -> x = disc_x t' z' -> y = disc_y t' z' -> t' = t /\ z' = z.
Proof.
  intros H. pose proof PI_RGT_0 as P0. set (z := x ^ 2 + y ^ 2) in *.
  pose proof (sqrt_lt_R0 z ltac:(lra)) as Hs. pose proof (sqrt_sqrt z ltac:(lra)) as Hss.
  destruct (angle_ex (x / sqrt z) (y / sqrt z)) as (th & Ht & Ec & Es).
  { replace ((x / sqrt z) ^ 2 + (y / sqrt z) ^ 2) with ((x ^ 2 + y ^ 2) / (sqrt z * sqrt z)) by (field; lra).
    rewrite Hss. fold z. field. lra. }
  assert (Et : th / (2 * PI) * (2 * PI) = th) by (field; lra).
  assert (Fx : x = sqrt z * cos th) by (rewrite <- Ec; field; lra).
  assert (Fy : y = sqrt z * sin th) by (rewrite <- Es; field; lra).
  exists (th / (2 * PI)), z. split.
  - split; [|split; [auto|split; unfold disc_x, disc_y; rewrite Et; auto]].
    split; [apply Rmult_le_pos; [lra|apply Rlt_le, Rinv_0_lt_compat; lra]|].
    apply (Rmult_lt_reg_r (2 * PI)); [lra|]. rewrite Et. lra.
  - intros t' z' Ht' Hz' Ex Ey. unfold disc_x, disc_y in Ex, Ey.
    assert (Ez : z' = z).
    { unfold z. rewrite Ex, Ey. symmetry. apply polar2. lra. }
    subst z'. split; auto.
    assert (t' * (2 * PI) = th).
    { apply angle_inj; auto.
      - split; nra.
      - apply (Rmult_eq_reg_l (sqrt z)); lra.
      - apply (Rmult_eq_reg_l (sqrt z)); lra. }
    rewrite <- H0. field. lra.
Qed.

(* oncircle: constant speed 2 PI, the length of the circle, and one to one onto it *)
Theorem C85_oncircle_speed t : exists dx dy,
  derivable_pt_lim (fun t => cos (2 * PI * t)) t dx /\ derivable_pt_lim (fun t => sin (2 * PI * t)) t dy /\
  sqrt (dx ^ 2 + dy ^ 2) = 2 * PI.
Proof.
  exists (- sin (2 * PI * t) * (2 * PI)), (cos (2 * PI * t) * (2 * PI)).
  split; [apply der_cos_lin|]. split; [apply der_sin_lin|].
  pose proof (sin2_cos2 (2 * PI * t)) as P. unfold Rsqr in P.
  replace ((- sin (2 * PI * t) * (2 * PI)) ^ 2 + (cos (2 * PI * t) * (2 * PI)) ^ 2)
    with ((sin (2 * PI * t) * sin (2 * PI * t) + cos (2 * PI * t) * cos (2 * PI * t)) * ((2 * PI) * (2 * PI))) by ring.
  rewrite P, Rmult_1_l. apply sqrt_square. pose proof PI_RGT_0. lra.
Qed.
Theorem C85_oncircle_onto x y : x ^ 2 + y ^ 2 = 1 ->
  exists t, (0 <= t < 1 /\ x = cos (2 * PI * t) /\ y = sin (2 * PI * t)) /\
    forall t', 0 <= t' < 1 -> x = cos (2 * PI * t') -> y = sin (2 * PI * t') -> t' = t.
Proof.
  intros H. pose proof PI_RGT_0 as P0. destruct (angle_ex x y H) as (th & Ht & Ec & Es).
  assert (Et : 2 * PI * (th / (2 * PI)) = th) by (field; lra).
  exists (th / (2 * PI)). rewrite Et. split.
  - split; auto. split; [apply Rmult_le_pos; [lra|apply Rlt_le, Rinv_0_lt_compat; lra]|].
    apply (Rmult_lt_reg_r (2 * PI)); [lra|]. rewrite Rmult_comm, Et. lra.
  - intros t' Ht' Ex Ey. assert (2 * PI * t' = th) by (apply angle_inj; try lra; nra).
    rewrite <- H0. field. lra.
Qed.

(* onsphere: constant area element 4 PI, the area of the sphere *)
Definition sph_x t u := cos (2 * PI * t) * sqrt (1 - (2 * u - 1) * (2 * u - 1)).
Definition sph_y t u := sin (2 * PI * t) * sqrt (1 - (2 * u - 1) * (2 * u - 1)).
Definition sph_z (t u : R) := 2 * u - 1.
Lemma der_rad u : 0 < u < 1 ->
  derivable_pt_lim (fun u => sqrt (1 - (2 * u - 1) * (2 * u - 1))) u
    (- 2 * (2 * u - 1) / sqrt (1 - (2 * u - 1) * (2 * u - 1))).
Proof.
  intros H. set (q := 1 - (2 * u - 1) * (2 * u - 1)). assert (Hq : 0 < q) by (unfold q; nra).
  pose proof (sqrt_lt_R0 q Hq) as Hs.
  apply (der_val _ _ (/ (2 * sqrt q) * (- (4 * (2 * u - 1))))); [field; lra|].
  apply (der_comp sqrt (fun u => 1 - (2 * u - 1) * (2 * u - 1))); [|now apply der_sqrt].
  apply (der_ext (minus_fct (fct_cte 1) (mult_fct (fun t => 2 * t + -1) (fun t => 2 * t + -1)))).
  { intros t. unfold minus_fct, fct_cte, mult_fct. ring. }
  apply (der_val _ _ (0 - (2 * (2 * u + -1) + (2 * u + -1) * 2))); [ring|].
  apply derivable_pt_lim_minus; [apply derivable_pt_lim_const|].
  apply (derivable_pt_lim_mult (fun t => 2 * t + -1) (fun t => 2 * t + -1) u 2 2); apply der_lin.
Qed.
Theorem C85_onsphere_map rnd sz : unit_src rnd -> valid_size sz ->
  exists a, onsphere rnd sz = Ok a /\ forall idx, inb idx (lead sz) ->
    let t := get (rnd 0%nat (lead sz ++ [1%nat])) (idx ++ [0%nat]) in
    let u := get (rnd 1%nat (lead sz ++ [1%nat])) (idx ++ [0%nat]) in
    pt a idx 0 = sph_x t u /\ pt a idx 1 = sph_y t u /\ pt a idx 2 = sph_z t u.
Proof.
  intros U V. destruct (onsphere_ok rnd sz U V) as (a & E & _ & G). exists a. split; auto.
  intros idx Hi. destruct (G idx Hi) as (_ & _ & Ex & Ey & Ez). auto.
Qed.
Theorem C85_onsphere_area t u : 0 < u < 1 -> area3 sph_x sph_y sph_z t u (4 * PI).
Proof.
  intros H. pose proof (der_rad u H) as Dr. set (q := 1 - (2 * u - 1) * (2 * u - 1)) in *.
  assert (Hq : 0 < q) by (unfold q; nra). pose proof (sqrt_lt_R0 q Hq) as Hs.
  pose proof (sqrt_sqrt q ltac:(lra)) as Hss.
  set (r := sqrt q) in *. set (dr := -2 * (2 * u - 1) / r) in *.
  set (a := 2 * PI * t). set (k := 2 * PI).
  exists (- sin a * k * r), (cos a * dr), (cos a * k * r), (sin a * dr), 0, 2.
  unfold D1, D2, sph_x, sph_y, sph_z. repeat split.
  - apply der_mulr. apply der_cos_lin.
  - apply der_scal. exact Dr.
  - apply der_mulr. apply der_sin_lin.
  - apply der_scal. exact Dr.
  - apply derivable_pt_lim_const.
  - apply (der_ext (fun t => 2 * t + -1)); [intros; ring|]. apply der_lin.
  - pose proof (sin2_cos2 a) as P. unfold Rsqr in P.
    assert (Er : dr * r = -2 * (2 * u - 1)) by (unfold dr; field; lra).
    replace ((cos a * k * r * 2 - 0 * (sin a * dr)) ^ 2 + (0 * (cos a * dr) - - sin a * k * r * 2) ^ 2 +
      (- sin a * k * r * (sin a * dr) - cos a * k * r * (cos a * dr)) ^ 2)
    with (k * k * (4 * (r * r) * (sin a * sin a + cos a * cos a) +
      (dr * r) * (dr * r) * (sin a * sin a + cos a * cos a) * (sin a * sin a + cos a * cos a))) by ring.
    rewrite P, Er, Hss. unfold q, k.
    replace (2 * PI * (2 * PI) * (4 * (1 - (2 * u - 1) * (2 * u - 1)) * 1 +
      -2 * (2 * u - 1) * (-2 * (2 * u - 1)) * 1 * 1)) with ((4 * PI) * (4 * PI)) by ring.
    apply sqrt_square. pose proof PI_RGT_0. lra.
Qed.
(* the map is one to one onto the sphere without its poles *)
Theorem C85_onsphere_onto x y z : x ^ 2 + y ^ 2 + z ^ 2 = 1 -> -1 < z < 1 ->
  exists t u, (0 <= t < 1 /\ 0 < u < 1 /\ x = sph_x t u /\ y = sph_y t u /\ z = sph_z t u) /\
    forall t' u', 0 <= t' < 1 -> 0 < u' < 1 ->
      x = sph_x t' u' -> y = sph_y t' u' -> z = sph_z t' u' -> t' = t /\ u' = u.
Proof.
  intros H Hz. set (q := 1 - z * z). assert (Hq : 0 < q) by (unfold q; nra).
  pose proof (sqrt_lt_R0 q Hq) as Hs. pose proof (sqrt_sqrt q ltac:(lra)) as Hss.
  destruct (C85_oncircle_onto (x / sqrt q) (y / sqrt q)) as (t & (Ht & Ex & Ey) & Un).
  { replace ((x / sqrt q) ^ 2 + (y / sqrt q) ^ 2) with ((x ^ 2 + y ^ 2) / (sqrt q * sqrt q)) by (field; lra).
    rewrite Hss. replace (x ^ 2 + y ^ 2) with q by (unfold q; lra). field. lra. }
  exists t, ((z + 1) / 2). unfold sph_x, sph_y, sph_z.
  assert (Ez : 2 * ((z + 1) / 2) - 1 = z) by field. rewrite Ez. fold q. split.
  - split; auto. split; [lra|]. rewrite <- Ex, <- Ey. repeat split; try (field; lra).
  - intros t' u' Ht' Hu' Ex' Ey' Ez'. assert (Eu : u' = (z + 1) / 2) by lra. split; auto.
    rewrite <- Ez' in Ex', Ey'. fold q in Ex', Ey'. apply Un; auto.
    + rewrite Ex'. field. lra.
    + rewrite Ey'. field. lra.
Qed.

(* rotation3: the image of the z axis (the third column, which does not depend on
   the first draw) has constant area element 4 PI *)
Definition col_x x1 x2 := rot 0 x1 x2 0%nat 2%nat.
Definition col_y x1 x2 := rot 0 x1 x2 1%nat 2%nat.
Definition col_z x1 x2 := rot 0 x1 x2 2%nat 2%nat.
Lemma col_indep x0 x1 x2 i : (i < 3)%nat -> rot x0 x1 x2 i 2%nat = rot 0 x1 x2 i 2%nat.
Proof. intros H. destruct i as [|[|[|i]]]; [reflexivity..|lia]. Qed.
Theorem C85_rotation3_area x1 x2 : 0 < x2 < 1 -> area3 col_x col_y col_z x1 x2 (4 * PI).
Proof.
  intros H. set (q := 1 - (2 * x2 - 1) * (2 * x2 - 1)).
  assert (E : forall b, 0 < b < 1 -> sqrt (2 * b) * sqrt (2 - 2 * b) = sqrt (1 - (2 * b - 1) * (2 * b - 1))).
  { intros b Hb. rewrite <- sqrt_mult by lra. f_equal. ring. }
  assert (Hq : 0 < q) by (unfold q; nra). pose proof (sqrt_lt_R0 q Hq) as Hs.
  pose proof (sqrt_sqrt q ltac:(lra)) as Hss.
  pose proof (der_rad x2 H) as Dr0. fold q in Dr0.
  assert (Dr : derivable_pt_lim (fun b => sqrt (2 * b) * sqrt (2 - 2 * b)) x2 (-2 * (2 * x2 - 1) / sqrt q)).
  { intros eps He. destruct (Dr0 eps He) as (del & Hd).
    set (m := Rmin del (Rmin (x2 / 2) ((1 - x2) / 2))).
    assert (Hm : 0 < m) by (unfold m; repeat apply Rmin_pos; try lra; apply del).
    exists (mkposreal m Hm). intros h Hh Hl. cbn in Hl.
    assert (Hl1 : Rabs h < del) by (eapply Rlt_le_trans; [exact Hl|apply Rmin_l]).
    assert (Hl2 : Rabs h < x2 / 2) by (eapply Rlt_le_trans; [exact Hl|eapply Rle_trans; [apply Rmin_r|apply Rmin_l]]).
    assert (Hl3 : Rabs h < (1 - x2) / 2) by (eapply Rlt_le_trans; [exact Hl|eapply Rle_trans; [apply Rmin_r|apply Rmin_r]]).
    apply Rabs_def2 in Hl2. apply Rabs_def2 in Hl3.
    rewrite !E by lra. now apply Hd. }
  set (r := sqrt q) in *. set (dr := -2 * (2 * x2 - 1) / r) in *.
  set (a := 2 * PI * x1). set (k := 2 * PI).
  assert (Er : sqrt (2 * x2) * sqrt (2 - 2 * x2) = r) by (rewrite E by lra; reflexivity).
  exists (cos a * k * r), (sin a * dr), (- sin a * k * r), (cos a * dr), 0, (-2).
  unfold D1, D2, col_x, col_y, col_z, rot. repeat split.
  - apply (der_ext (fun x => sin (2 * PI * x) * r)).
    { intros x. rewrite <- Er. replace (2 * PI * x) with (2 * x * PI) by ring. ring. }
    apply der_mulr, der_sin_lin.
  - apply (der_ext (fun b => sin a * (sqrt (2 * b) * sqrt (2 - 2 * b)))).
    { intros b. unfold a. replace (2 * PI * x1) with (2 * x1 * PI) by ring. ring. }
    apply der_scal, Dr.
  - apply (der_ext (fun x => cos (2 * PI * x) * r)).
    { intros x. rewrite <- Er. replace (2 * PI * x) with (2 * x * PI) by ring. ring. }
    apply der_mulr, der_cos_lin.
  - apply (der_ext (fun b => cos a * (sqrt (2 * b) * sqrt (2 - 2 * b)))).
    { intros b. unfold a. replace (2 * PI * x1) with (2 * x1 * PI) by ring. ring. }
    apply der_scal, Dr.
  - apply derivable_pt_lim_const.
  - apply (der_ext (fun t => -2 * t + 1)); [intros; ring|]. apply der_lin.
  - pose proof (sin2_cos2 a) as P. unfold Rsqr in P.
    assert (Ed : dr * r = -2 * (2 * x2 - 1)) by (unfold dr; field; lra).
    replace ((- sin a * k * r * -2 - 0 * (cos a * dr)) ^ 2 + (0 * (sin a * dr) - cos a * k * r * -2) ^ 2 +
      (cos a * k * r * (cos a * dr) - - sin a * k * r * (sin a * dr)) ^ 2)
    with (k * k * (4 * (r * r) * (sin a * sin a + cos a * cos a) +
      (dr * r) * (dr * r) * (sin a * sin a + cos a * cos a) * (sin a * sin a + cos a * cos a))) by ring.
    rewrite P, Ed, Hss. unfold q, k.
    replace (2 * PI * (2 * PI) * (4 * (1 - (2 * x2 - 1) * (2 * x2 - 1)) * 1 +
      -2 * (2 * x2 - 1) * (-2 * (2 * x2 - 1)) * 1 * 1)) with ((4 * PI) * (4 * PI)) by ring.
    apply sqrt_square. pose proof PI_RGT_0. lra.
Qed.

(** ** insphere *)
(* Uniform points of the ball need a constant volume element: with the radius
   sqrt(1 - mu*mu) it would be 4 PI / 3.  The radius sqrt(1 - mu) of the code gives
   (4 PI / 3) * (1 - mu/2), which varies by a factor of 3 over the draws. *)
Definition ball_x u t z := cbrt z * (sqrt (1 - (2 * u - 1)) * cos (t * (2 * PI))).
Definition ball_y u t z := cbrt z * (sqrt (1 - (2 * u - 1)) * sin (t * (2 * PI))).
Definition ball_z (u t z : R) := cbrt z * (2 * u - 1).
(* the map (f, g, h) of space scales volumes by the factor k at (x, y, z) *)
Definition vol3 (f g h : R -> R -> R -> R) x y z k : Prop :=
  exists fx fy fz gx gy gz hx hy hz,
    derivable_pt_lim (fun x => f x y z) x fx /\ derivable_pt_lim (fun y => f x y z) y fy /\ derivable_pt_lim (f x y) z fz /\
    derivable_pt_lim (fun x => g x y z) x gx /\ derivable_pt_lim (fun y => g x y z) y gy /\ derivable_pt_lim (g x y) z gz /\
    derivable_pt_lim (fun x => h x y z) x hx /\ derivable_pt_lim (fun y => h x y z) y hy /\ derivable_pt_lim (h x y) z hz /\
    Rabs (fx * (gy * hz - gz * hy) - fy * (gx * hz - gz * hx) + fz * (gx * hy - gy * hx)) = k.
Lemma der_cbrt z : 0 < z -> derivable_pt_lim cbrt z (/ (3 * cbrt z ^ 2)).
Proof.
  intros H. assert (Hc : 0 < cbrt z).
  { unfold cbrt. destruct (Reqb_spec z 0); [lra|]. apply exp_pos. }
  pose proof (cbrt_cube z ltac:(lra)) as C3.
  assert (D : derivable_pt_lim (fun x => Rpower x (1 / 3)) z (1 / 3 * Rpower z (1 / 3 - 1))).
  { apply derivable_pt_lim_power. exact H. }
  apply (der_val _ _ (1 / 3 * Rpower z (1 / 3 - 1))).
  { unfold Rminus. rewrite Rpower_plus, Rpower_Ropp, Rpower_1 by auto.
    replace (Rpower z (1 / 3)) with (cbrt z).
    - rewrite <- C3 at 2. field. lra.
    - unfold cbrt. destruct (Reqb_spec z 0); [lra|]. reflexivity. }
  intros eps He. destruct (D eps He) as (del & Hd).
  assert (Hm : 0 < Rmin del z) by (apply Rmin_pos; [apply del|auto]).
  exists (mkposreal _ Hm). intros h Hh Hl. cbn in Hl.
  assert (Hl1 : Rabs h < del) by (eapply Rlt_le_trans; [exact Hl|apply Rmin_l]).
  assert (Hl2 : Rabs h < z) by (eapply Rlt_le_trans; [exact Hl|apply Rmin_r]).
  apply Rabs_def2 in Hl2. specialize (Hd h Hh Hl1). unfold cbrt.
  destruct (Reqb_spec (z + h) 0); [lra|]. destruct (Reqb_spec z 0); [lra|]. exact Hd.
Qed.
Lemma der_radius u : u < 1 -> derivable_pt_lim (fun u => sqrt (1 - (2 * u - 1))) u (- / sqrt (1 - (2 * u - 1))).
Proof.
  intros H. set (q := 1 - (2 * u - 1)). assert (Hq : 0 < q) by (unfold q; lra).
  pose proof (sqrt_lt_R0 q Hq) as Hs.
  apply (der_val _ _ (/ (2 * sqrt q) * -2)); [field; lra|].
  apply (der_comp sqrt (fun u => 1 - (2 * u - 1))); [|now apply der_sqrt].
  apply (der_ext (fun t => -2 * t + 2)); [intros; ring|]. apply der_lin.
Qed.
Theorem C85_insphere_map rnd sz : unit_src rnd -> valid_size sz -> (size (lead sz) < 70)%nat ->
  exists a, insphere rnd 0 sz = Some (Ok a) /\ forall idx, inb idx (lead sz) ->
    let d := rnd 0%nat (3%nat :: lead sz ++ [1%nat]) in
    let u := get d (0%nat :: idx ++ [0%nat]) in
    let t := get d (1%nat :: idx ++ [0%nat]) in
    let z := get d (2%nat :: idx ++ [0%nat]) in
    pt a idx 0 = ball_x u t z /\ pt a idx 1 = ball_y u t z /\ pt a idx 2 = ball_z u t z.
Proof.
  intros U V. pose proof (proj1 (valid_neg sz) V) as N. rewrite lead_dims. unfold insphere.
  rewrite <- (size_dims _ N). intros H. destruct (Z.ltb_spec (Z.of_nat (size (dims (size_tuple sz)))) 70); [|lia].
  destruct (insphere_direct_ok rnd _ U N) as (a & E & _ & G). exists a. split; [now rewrite E|].
  intros idx Hi. destruct (G idx Hi) as (u & t & z & _ & _ & _ & Eu & Et & Ez & Ex & Ey & Ew).
  cbn zeta. change (3%nat :: dims (size_tuple sz) ++ [1%nat]) with ([3%nat] ++ dims (size_tuple sz) ++ [1%nat]).
  rewrite <- Eu, <- Et, <- Ez. auto.
Qed.
Theorem C85_insphere_volume u t z : 0 <= u < 1 -> 0 < z ->
  vol3 ball_x ball_y ball_z u t z (4 * PI / 3 * (1 - (2 * u - 1) / 2)).
Proof.
  intros Hu Hz. pose proof (der_radius u ltac:(lra)) as Dr. pose proof (der_cbrt z Hz) as Dc.
  set (q := 1 - (2 * u - 1)) in *. assert (Hq : 0 < q) by (unfold q; lra).
  pose proof (sqrt_lt_R0 q Hq) as Hs. pose proof (sqrt_sqrt q ltac:(lra)) as Hss.
  assert (Hc : 0 < cbrt z). { unfold cbrt. destruct (Reqb_spec z 0); [lra|]. apply exp_pos. }
  set (c := cbrt z) in *. set (dc := / (3 * c ^ 2)) in *. set (r := sqrt q) in *. set (dr := - / r) in *.
  set (a := 2 * PI * t). set (k := 2 * PI).
  assert (Ea : t * (2 * PI) = a) by (unfold a; ring).
  exists (c * (dr * cos a)), (c * (r * (- sin a * k))), (dc * (r * cos a)),
    (c * (dr * sin a)), (c * (r * (cos a * k))), (dc * (r * sin a)), (c * 2), 0, (dc * (2 * u - 1)).
  unfold ball_x, ball_y, ball_z. rewrite !Ea. repeat split.
  - apply der_scal, der_mulr. exact Dr.
  - apply der_scal, der_scal. apply (der_ext (fun t => cos (2 * PI * t))); [intros; f_equal; ring|]. apply der_cos_lin.
  - apply der_mulr. exact Dc.
  - apply der_scal, der_mulr. exact Dr.
  - apply der_scal, der_scal. apply (der_ext (fun t => sin (2 * PI * t))); [intros; f_equal; ring|]. apply der_sin_lin.
  - apply der_mulr. exact Dc.
  - apply der_scal. apply (der_ext (fun t => 2 * t + -1)); [intros; ring|]. apply der_lin.
  - apply derivable_pt_lim_const.
  - apply der_mulr. exact Dc.
  - pose proof (sin2_cos2 a) as P. unfold Rsqr in P.
    set (mu := 2 * u - 1) in *.
    replace (c * (dr * cos a) * (c * (r * (cos a * k)) * (dc * mu) - dc * (r * sin a) * 0) -
       c * (r * (- sin a * k)) * (c * (dr * sin a) * (dc * mu) - dc * (r * sin a) * (c * 2)) +
       dc * (r * cos a) * (c * (dr * sin a) * 0 - c * (r * (cos a * k)) * (c * 2)))
      with (c ^ 2 * dc * k * (sin a * sin a + cos a * cos a) * ((dr * r) * mu - 2 * (r * r))) by ring.
    rewrite P, Hss. replace (c ^ 2 * dc) with (1 / 3) by (unfold dc; field; lra).
    replace (dr * r) with (-1) by (unfold dr; field; lra).
    unfold q, k. replace (1 / 3 * (2 * PI) * 1 * (-1 * mu - 2 * (1 - mu))) with (- (4 * PI / 3 * (1 - mu / 2))) by field.
    rewrite Rabs_Ropp. apply Rabs_pos_eq. pose proof PI_RGT_0. unfold mu.
    apply Rmult_le_pos; lra.
Qed.
(* so no constant is the volume element of the direct branch of insphere *)
Lemma der_unique f x d e : derivable_pt_lim f x d -> derivable_pt_lim f x e -> d = e.
Proof. apply uniqueness_limite. Qed.
Lemma vol3_unique f g h x y z k l : vol3 f g h x y z k -> vol3 f g h x y z l -> k = l.
Proof.
  intros (a & b & c & d & e & i & j & m & n & A1 & A2 & A3 & A4 & A5 & A6 & A7 & A8 & A9 & A)
    (a' & b' & c' & d' & e' & i' & j' & m' & n' & B1 & B2 & B3 & B4 & B5 & B6 & B7 & B8 & B9 & B).
  rewrite <- A, <- B.
  rewrite (der_unique _ _ _ _ A1 B1), (der_unique _ _ _ _ A2 B2), (der_unique _ _ _ _ A3 B3),
    (der_unique _ _ _ _ A4 B4), (der_unique _ _ _ _ A5 B5), (der_unique _ _ _ _ A6 B6),
    (der_unique _ _ _ _ A7 B7), (der_unique _ _ _ _ A8 B8), (der_unique _ _ _ _ A9 B9). reflexivity.
Qed.
Theorem C85_insphere_refuted : ~ exists k, forall u t z, 0 <= u < 1 -> 0 <= t < 1 -> 0 < z < 1 ->
  vol3 ball_x ball_y ball_z u t z k.
Proof.
  intros (k & H). pose proof PI_RGT_0.
  pose proof (vol3_unique _ _ _ _ _ _ _ _ (H 0 0 (1 / 2) ltac:(lra) ltac:(lra) ltac:(lra)) (C85_insphere_volume 0 0 (1 / 2) ltac:(lra) ltac:(lra))).
  pose proof (vol3_unique _ _ _ _ _ _ _ _ (H (1 / 2) 0 (1 / 2) ltac:(lra) ltac:(lra) ltac:(lra)) (C85_insphere_volume (1 / 2) 0 (1 / 2) ltac:(lra) ltac:(lra))).
  lra.
Qed.

(* rejection: a draw of the square (cube) is kept exactly when it lies in the disc
   (ball), so the kept points are the uniform draws of the square conditioned on
   the disc *)
Theorem C85_rejection d m q p : In p (accepted d m q) <->
  (exists i, (i < m)%nat /\ p = map (fun j => 2 * get q [i; j] - 1) (seq 0 d)) /\ norm2 p < 1.
Proof.
  split.
  - intros H. apply accepted_in in H. destruct H as (N & i & Hi & E). split; [exists i; auto|auto].
  - intros ((i & Hi & E) & N). unfold accepted. apply filter_In. split.
    + apply in_map_iff. exists i. split; [symmetry; exact E|]. apply in_seq. lia.
    + destruct (Rltb_spec (norm2 p) 1); auto.
Qed.

(* a concrete point of the disc and its draws *)
Example ex_C85 : exists t z, 0 <= t < 1 /\ 0 < z < 1 /\ 3 / 5 = disc_x t z /\ 0 = disc_y t z.
Proof.
  destruct (C85_incircle_onto (3 / 5) 0 ltac:(lra)) as (t & z & (A & B & C & D) & _). exists t, z. auto.
Qed.
Example ex_C85_area : area2 disc_x disc_y (1 / 3) (1 / 4) PI /\ area3 sph_x sph_y sph_z (1 / 3) (1 / 4) (4 * PI).
Proof. split; [apply C85_incircle_area|apply C85_onsphere_area]; lra. Qed.

Print Assumptions C85_incircle_area.
Print Assumptions C85_incircle_onto.
Print Assumptions C85_onsphere_area.
Print Assumptions C85_rotation3_area.
Print Assumptions C85_insphere_refuted.
