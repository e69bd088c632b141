(* Properties C73-C75 of randomx.py: incircle, oncircle, insphere, onsphere.

   A point of the result a at the leading index idx has the coordinates
   a[idx, 0], a[idx, 1], ...; [pt a idx j] is a[idx, j]. *)
From Coq Require Import List Arith ZArith Bool Lia Reals Lra.
From Verif Require Import Num PyBase NdArray NdLemmas RandomX RandomXProofs.
Import ListNotations.
Open Scope R_scope.
Open Scope res_scope.

Definition pt (a : nd R) (idx : list nat) (j : nat) : R := get a (idx ++ [j]).
Definition sq2 (a : nd R) idx : R := pt a idx 0 ^ 2 + pt a idx 1 ^ 2.
Definition sq3 (a : nd R) idx : R := pt a idx 0 ^ 2 + pt a idx 1 ^ 2 + pt a idx 2 ^ 2.
(* the leading axes asked for: none, one or several *)
Definition valid_size (sz : sizearg) : Prop :=
  match sz with
  | SNone => True
  | SInt n => (0 <= n)%Z
  | SSeq l => Forall (fun n => (0 <= n)%Z) l
  end.
Definition lead (sz : sizearg) : list nat :=
  match sz with
  | SNone => []
  | SInt n => [Z.to_nat n]
  | SSeq l => map Z.to_nat l
  end.

Lemma valid_neg sz : valid_size sz <-> neg_dim (size_tuple sz) = false.
Proof.
  destruct sz as [|n|l]; cbn [valid_size size_tuple neg_dim existsb].
  - split; auto.
  - rewrite orb_false_r, Z.ltb_ge. reflexivity.
  - rewrite Forall_forall. unfold neg_dim. split.
    + intros H. destruct (existsb _ l) eqn:E; auto. apply existsb_exists in E.
      destruct E as (x & Hx & E). apply H in Hx. apply Z.ltb_lt in E. lia.
    + intros H x Hx. destruct (Z.ltb_spec x 0) as [L|L]; auto. exfalso.
      assert (existsb (fun z => (z <? 0)%Z) l = true) by (apply existsb_exists; exists x; split; auto; now apply Z.ltb_lt).
      congruence.
Qed.
Lemma lead_dims sz : lead sz = dims (size_tuple sz).
Proof. destruct sz; reflexivity. Qed.
Lemma valid_dec sz : valid_size sz \/ neg_dim (size_tuple sz) = true.
Proof. rewrite valid_neg. destruct (neg_dim _); auto. Qed.
Lemma random_ok rnd k s : unit_src rnd -> neg_dim s = false ->
  random rnd k s = Ok (rnd k (dims s)) /\ shp (rnd k (dims s)) = dims s.
Proof. intros H E. unfold random. rewrite E. split; auto. apply H. Qed.

(** ** Direct formulas, element by element *)
Lemma incircle_direct_ok rnd s : unit_src rnd -> neg_dim s = false ->
  exists a, incircle_direct rnd s = Ok a /\ shp a = dims s ++ [2%nat] /\
    forall idx, inb idx (dims s) -> exists t z, 0 <= t < 1 /\ 0 <= z < 1 /\
      t = get (rnd 0%nat ([2%nat] ++ dims s ++ [1%nat])) (0%nat :: idx ++ [0%nat]) /\
      z = get (rnd 0%nat ([2%nat] ++ dims s ++ [1%nat])) (1%nat :: idx ++ [0%nat]) /\
      pt a idx 0 = sqrt z * cos (t * (2 * PI)) /\ pt a idx 1 = sqrt z * sin (t * (2 * PI)).
Proof.
  intros U N. unfold incircle_direct.
  assert (N' : neg_dim ([2%Z] ++ s ++ [1%Z]) = false) by (rewrite !neg_dim_app, N; reflexivity).
  destruct (random_ok rnd 0 _ U N') as [-> S0].
  rewrite !dims_app in *. change (dims [2%Z]) with [2%nat] in *. change (dims [1%Z]) with [1%nat] in *.
  set (u := rnd 0%nat ([2%nat] ++ dims s ++ [1%nat])) in *. cbn [bind].
  destruct (cat_last_ok (nd_map cos (nd_map (fun x => x * (2 * PI)) (nd_take 0 0 u)))
    (nd_map sin (nd_map (fun x => x * (2 * PI)) (nd_take 0 0 u))) (dims s) 1 1) as (c & -> & Sc & Gc).
  { cbn [nd_map shp nd_take]. rewrite S0. reflexivity. }
  { cbn [nd_map shp nd_take]. rewrite S0. reflexivity. }
  cbn [bind].
  destruct (map2_last1 Rmult (nd_map sqrt (nd_take 0 1 u)) c (dims s) 2) as (a & -> & Sa & Ga).
  { cbn [nd_map shp nd_take]. rewrite S0. reflexivity. }
  { exact Sc. }
  exists a. split; auto. split; auto. intros idx Hi.
  exists (get u (0%nat :: idx ++ [0%nat])), (get u (1%nat :: idx ++ [0%nat])).
  assert (B : forall i, (i < 2)%nat -> 0 <= get u (i :: idx ++ [0%nat]) < 1).
  { intros i Hi2. apply U. constructor; auto. apply inb_snoc; auto. }
  split; [apply B; lia|]. split; [apply B; lia|]. split; [reflexivity|]. split; [reflexivity|].
  unfold pt. rewrite !Ga, !Gc by (auto; lia). split; reflexivity.
Qed.

Lemma oncircle_ok rnd k sz : unit_src rnd -> valid_size sz ->
  exists a, oncircle_k rnd k sz = Ok a /\ shp a = lead sz ++ [2%nat] /\
    forall idx, inb idx (lead sz) ->
      let t := get (rnd k (lead sz ++ [1%nat])) (idx ++ [0%nat]) in
      0 <= t < 1 /\ pt a idx 0 = cos (2 * PI * t) /\ pt a idx 1 = sin (2 * PI * t).
Proof.
  intros U V. rewrite lead_dims. apply valid_neg in V. unfold oncircle_k.
  set (s := size_tuple sz) in *.
  assert (N' : neg_dim (s ++ [1%Z]) = false) by (rewrite neg_dim_app, V; reflexivity).
  destruct (random_ok rnd k _ U N') as [-> S0].
  rewrite !dims_app in *. change (dims [1%Z]) with [1%nat] in *.
  set (u := rnd k (dims s ++ [1%nat])) in *. cbn [bind].
  destruct (cat_last_ok (nd_map cos (nd_map (fun x => 2 * PI * x) u))
    (nd_map sin (nd_map (fun x => 2 * PI * x) u)) (dims s) 1 1) as (c & -> & Sc & Gc).
  { cbn [nd_map shp]. exact S0. }
  { cbn [nd_map shp]. exact S0. }
  exists c. split; auto. split; auto. intros idx Hi.
  split; [apply U; apply inb_snoc; auto|]. unfold pt. rewrite !Gc. split; reflexivity.
Qed.

Lemma insphere_direct_ok rnd s : unit_src rnd -> neg_dim s = false ->
  exists a, insphere_direct rnd s = Ok a /\ shp a = dims s ++ [3%nat] /\
    forall idx, inb idx (dims s) -> exists u t z, 0 <= u < 1 /\ 0 <= t < 1 /\ 0 <= z < 1 /\
      u = get (rnd 0%nat ([3%nat] ++ dims s ++ [1%nat])) (0%nat :: idx ++ [0%nat]) /\
      t = get (rnd 0%nat ([3%nat] ++ dims s ++ [1%nat])) (1%nat :: idx ++ [0%nat]) /\
      z = get (rnd 0%nat ([3%nat] ++ dims s ++ [1%nat])) (2%nat :: idx ++ [0%nat]) /\
      pt a idx 0 = cbrt z * (sqrt (1 - (2 * u - 1)) * cos (t * (2 * PI))) /\
      pt a idx 1 = cbrt z * (sqrt (1 - (2 * u - 1)) * sin (t * (2 * PI))) /\
      pt a idx 2 = cbrt z * (2 * u - 1).
Proof.
  intros U N. unfold insphere_direct.
  assert (N' : neg_dim ([3%Z] ++ s ++ [1%Z]) = false) by (rewrite !neg_dim_app, N; reflexivity).
  destruct (random_ok rnd 0 _ U N') as [-> S0].
  rewrite !dims_app in *. change (dims [3%Z]) with [3%nat] in *. change (dims [1%Z]) with [1%nat] in *.
  set (u := rnd 0%nat ([3%nat] ++ dims s ++ [1%nat])) in *. cbn [bind].
  set (mu := nd_map (fun x => 2 * x - 1) (nd_take 0 0 u)).
  set (phi := nd_map (fun x => x * (2 * PI)) (nd_take 0 1 u)).
  assert (Smu : shp mu = dims s ++ [1%nat]) by (unfold mu; cbn [nd_map shp nd_take]; rewrite S0; reflexivity).
  assert (Sphi : shp phi = dims s ++ [1%nat]) by (unfold phi; cbn [nd_map shp nd_take]; rewrite S0; reflexivity).
  destruct (map2_last1 Rmult (nd_map (fun x => sqrt (1 - x)) mu) (nd_map cos phi) (dims s) 1 Smu Sphi)
    as (x & -> & Sx & Gx). cbn [bind].
  destruct (map2_last1 Rmult (nd_map (fun x => sqrt (1 - x)) mu) (nd_map sin phi) (dims s) 1 Smu Sphi)
    as (y & -> & Sy & Gy). cbn [bind].
  destruct (cat_last_ok x y (dims s) 1 1 Sx Sy) as (xy & -> & Sxy & Gxy). cbn [bind].
  destruct (cat_last_ok xy mu (dims s) 2 1 Sxy Smu) as (c & -> & Sc & Gc). cbn [bind].
  destruct (map2_last1 Rmult (nd_map cbrt (nd_take 0 2 u)) c (dims s) 3) as (a & -> & Sa & Ga).
  { cbn [nd_map shp nd_take]. rewrite S0. reflexivity. }
  { exact Sc. }
  exists a. split; auto. split; auto. intros idx Hi.
  exists (get u (0%nat :: idx ++ [0%nat])), (get u (1%nat :: idx ++ [0%nat])), (get u (2%nat :: idx ++ [0%nat])).
  assert (B : forall i, (i < 3)%nat -> 0 <= get u (i :: idx ++ [0%nat]) < 1).
  { intros i Hi2. apply U. constructor; auto. apply inb_snoc; auto. }
  split; [apply B; lia|]. split; [apply B; lia|]. split; [apply B; lia|].
  do 3 (split; [reflexivity|]).
  unfold pt. rewrite !Ga, !Gc by (auto; lia). cbn [Nat.ltb Nat.leb Nat.sub].
  rewrite !Gxy. cbn [Nat.ltb Nat.leb Nat.sub]. rewrite Gx, Gy by (auto; lia).
  repeat split; reflexivity.
Qed.

Lemma onsphere_ok rnd sz : unit_src rnd -> valid_size sz ->
  exists a, onsphere rnd sz = Ok a /\ shp a = lead sz ++ [3%nat] /\
    forall idx, inb idx (lead sz) ->
      let t := get (rnd 0%nat (lead sz ++ [1%nat])) (idx ++ [0%nat]) in
      let u := get (rnd 1%nat (lead sz ++ [1%nat])) (idx ++ [0%nat]) in
      0 <= t < 1 /\ 0 <= u < 1 /\
      pt a idx 0 = cos (2 * PI * t) * sqrt (1 - (2 * u - 1) * (2 * u - 1)) /\
      pt a idx 1 = sin (2 * PI * t) * sqrt (1 - (2 * u - 1) * (2 * u - 1)) /\
      pt a idx 2 = 2 * u - 1.
Proof.
  intros U V. unfold onsphere.
  destruct (oncircle_ok rnd 0 sz U V) as (xy & -> & Sxy & Gxy). cbn [bind].
  rewrite Sxy, removelast_last. apply valid_neg in V.
  set (L := lead sz) in *.
  assert (E : dims (map Z.of_nat L ++ [1%Z]) = L ++ [1%nat]).
  { rewrite dims_app. f_equal. unfold dims. rewrite map_map. clear.
    induction L as [|x l IH]; cbn [map]; auto. rewrite Nat2Z.id, IH. reflexivity. }
  assert (N' : neg_dim (map Z.of_nat L ++ [1%Z]) = false).
  { rewrite neg_dim_app. cbn. rewrite orb_false_r. clear. induction L as [|x l IH]; cbn; auto.
    destruct (Z.ltb_spec (Z.of_nat x) 0); [lia|]. exact IH. }
  destruct (random_ok rnd 1 _ U N') as [-> S0]. rewrite E in *. cbn [bind].
  set (u := rnd 1%nat (L ++ [1%nat])) in *.
  set (z := nd_map (fun x => 2 * x - 1) u).
  assert (Sz : shp z = L ++ [1%nat]) by exact S0.
  destruct (map2_1last Rmult xy (nd_map (fun x => sqrt (1 - x * x)) z) L 2 Sxy Sz)
    as (w & -> & Sw & Gw). cbn [bind].
  destruct (cat_last_ok w z L 2 1 Sw Sz) as (a & -> & Sa & Ga).
  exists a. split; auto. split; auto. intros idx Hi.
  destruct (Gxy idx Hi) as (Bt & G0 & G1). unfold pt in G0, G1.
  split; [exact Bt|]. split; [apply U; apply inb_snoc; auto|].
  unfold pt. rewrite !Ga. cbn [Nat.ltb Nat.leb Nat.sub]. rewrite !Gw by (auto; lia).
  rewrite G0, G1. repeat split; reflexivity.
Qed.

Lemma reject_pts d p : d = 2%nat \/ d = 3%nat -> forall q i, p = row_of d q i ->
  norm2 p = (nth 0 p 0) ^ 2 + (nth 1 p 0) ^ 2 + (if (d =? 3)%nat then (nth 2 p 0) ^ 2 else 0).
Proof. intros [-> | ->] q i ->; cbn; ring. Qed.

Lemma reject_ok rnd fac d fuel s a : (0 < d)%nat ->
  option_map (finish d s) (reject rnd fac d fuel 0 (zprod s) []) = Some (Ok a) ->
  neg_dim s = false /\ shp a = dims s ++ [d] /\
  (zprod s <= Z.of_nat (length (passes rnd fac d (zprod s) fuel)))%Z /\
  forall idx, inb idx (dims s) ->
    let r := nth (ravel (dims s) idx) (passes rnd fac d (zprod s) fuel) [] in
    In r (passes rnd fac d (zprod s) fuel) /\
    (forall j, (j < d)%nat -> pt a idx j = nth j r 0).
Proof.
  intros Hd. rewrite reject_eq.
  destruct (Z.leb_spec (zprod s) (Z.of_nat (length (passes rnd fac d (zprod s) fuel)))); [|discriminate].
  cbn [option_map]. intros Q. inversion Q as [Q1]. clear Q.
  destruct (neg_dim s) eqn:N; [unfold finish in Q1; rewrite N in Q1; discriminate|].
  destruct (finish_ok d s _ Hd N H) as (a' & E & Sa & Ga). rewrite E in Q1. inversion Q1; subst a'.
  split; auto. split; auto. split; auto. intros idx Hi. split.
  - destruct (Ga idx 0%nat Hi Hd) as [_ L]. apply nth_In. exact L.
  - intros j Hj. unfold pt. destruct (Ga idx j Hi Hj) as [-> _]. reflexivity.
Qed.

(** ** C73 *)
Lemma polar2 z t : 0 <= z -> (sqrt z * cos t) ^ 2 + (sqrt z * sin t) ^ 2 = z.
Proof.
  intros H. replace ((sqrt z * cos t) ^ 2 + (sqrt z * sin t) ^ 2)
    with (sqrt z ^ 2 * (Rsqr (sin t) + Rsqr (cos t))) by (unfold Rsqr; ring).
  rewrite sin2_cos2, Rmult_1_r. cbn. rewrite Rmult_1_r. now apply sqrt_sqrt.
Qed.

(* Whatever the source returns in [0, 1): if incircle returns, the result has
   one point per index of the requested shape, and every point is strictly inside
   the unit circle. *)
Theorem C73_incircle rnd fuel sz a : unit_src rnd ->
  incircle rnd fuel sz = Some (Ok a) ->
  valid_size sz /\ shp a = lead sz ++ [2%nat] /\
  forall idx, inb idx (lead sz) -> sq2 a idx < 1.
Proof.
  intros U. rewrite lead_dims, valid_neg. unfold incircle. set (s := size_tuple sz).
  destruct (Z.ltb_spec (zprod s) 330).
  - intros H0. inversion H0 as [H1]. destruct (neg_dim s) eqn:N.
    { unfold incircle_direct, random in H1. rewrite !neg_dim_app, N in H1. cbn in H1. discriminate. }
    destruct (incircle_direct_ok rnd s U N) as (a' & E & Sa & Ga). rewrite E in H1. inversion H1; subst a'.
    split; auto. split; auto. intros idx Hi.
    destruct (Ga idx Hi) as (t & z & Bt & Bz & _ & _ & Ex & Ey).
    unfold sq2. rewrite Ex, Ey, polar2; lra.
  - intros H1. apply reject_ok in H1; [|lia]. destruct H1 as (N & Sa & _ & Ga).
    split; auto. split; auto. intros idx Hi. destruct (Ga idx Hi) as [Hin G].
    apply passes_in in Hin. destruct Hin as (Hn & k' & m & i & _ & _ & E).
    rewrite (reject_pts 2 _ (or_introl eq_refl) _ _ E) in Hn. cbn [Nat.eqb] in Hn.
    unfold sq2. rewrite !G by lia. lra.
Qed.
(* It fails exactly for a negative length, with ValueError, and always returns
   for fewer than 330 points. *)
Theorem C73_errors rnd fuel sz e : unit_src rnd ->
  incircle rnd fuel sz = Some (Err e) -> e = ValueError /\ ~ valid_size sz.
Proof.
  intros U. rewrite valid_neg. unfold incircle. set (s := size_tuple sz).
  destruct (Z.ltb_spec (zprod s) 330).
  - intros H0. inversion H0 as [H1]. destruct (neg_dim s) eqn:N.
    { unfold incircle_direct, random in H1. rewrite !neg_dim_app, N in H1. cbn in H1.
      inversion H1. split; congruence. }
    destruct (incircle_direct_ok rnd s U N) as (a' & E & _). congruence.
  - rewrite reject_eq. destruct (Z.leb_spec (zprod s) (Z.of_nat (length (passes rnd (4 / PI) 2 (zprod s) fuel)))); [|discriminate].
    cbn [option_map]. intros Q. inversion Q as [Q1].
    destruct (neg_dim s) eqn:N; [unfold finish in Q1; rewrite N in Q1; inversion Q1; split; congruence|].
    destruct (finish_ok 2 s _ ltac:(lia) N H0) as (a & E & _). congruence.
Qed.
Theorem C73_small rnd fuel sz : unit_src rnd -> valid_size sz -> (size (lead sz) < 330)%nat ->
  exists a, incircle rnd fuel sz = Some (Ok a).
Proof.
  intros U V. pose proof (proj1 (valid_neg sz) V) as N. rewrite lead_dims. unfold incircle.
  rewrite <- (size_dims _ N). intros H. destruct (Z.ltb_spec (Z.of_nat (size (dims (size_tuple sz)))) 330); [|lia].
  destruct (incircle_direct_ok rnd _ U N) as (a & E & _). exists a. now rewrite E.
Qed.
(* For 330 or more points: the result is the first prod(size) points accepted,
   in the order of the draws, over the passes made ... *)
Theorem C73_large rnd fuel sz a : unit_src rnd -> valid_size sz -> (330 <= size (lead sz))%nat ->
  let n := Z.of_nat (size (lead sz)) in
  incircle rnd fuel sz = Some (Ok a) ->
  forall idx, inb idx (lead sz) ->
    let r := nth (ravel (lead sz) idx) (passes rnd (4 / PI) 2 n fuel) [] in
    r = [pt a idx 0; pt a idx 1].
Proof.
  intros U V. pose proof (proj1 (valid_neg sz) V) as N. rewrite lead_dims. unfold incircle.
  rewrite <- (size_dims _ N). intros H. destruct (Z.ltb_spec (Z.of_nat (size (dims (size_tuple sz)))) 330); [lia|].
  cbn zeta. rewrite (size_dims _ N). intros Q idx Hi. apply reject_ok in Q; [|lia].
  destruct Q as (_ & _ & _ & Ga). destruct (Ga idx Hi) as [Hin G].
  apply passes_in in Hin. destruct Hin as (_ & k' & m & i & _ & _ & E).
  rewrite !G by lia. rewrite E. reflexivity.
Qed.
(* ... and it returns after at most prod(size) passes when every pass that is
   made accepts a point; *)
Theorem C73_progress rnd sz fuel : unit_src rnd -> valid_size sz -> (330 <= size (lead sz) <= fuel)%nat ->
  let n := Z.of_nat (size (lead sz)) in
  (forall k, let left := (n - Z.of_nat (length (passes rnd (4 / PI) 2 n k)))%Z in (0 < left)%Z ->
     exists i, (i < passm (4 / PI) left)%nat /\
       norm2 (row_of 2 (rnd k [passm (4 / PI) left; 2%nat]) i) < 1) ->
  exists a, incircle rnd fuel sz = Some (Ok a).
Proof.
  intros U V Hs n Hp. pose proof (proj1 (valid_neg sz) V) as N. unfold n in *. clear n.
  rewrite lead_dims in *. unfold incircle.
  rewrite (size_dims _ N) in *. set (n := zprod (size_tuple sz)) in *.
  assert (Hn : (330 <= n <= Z.of_nat fuel)%Z) by (unfold n; rewrite <- (size_dims _ N); lia).
  destruct (Z.ltb_spec n 330); [lia|]. rewrite reject_eq.
  assert (P : (Z.min n (Z.of_nat fuel) <= Z.of_nat (length (passes rnd (4 / PI) 2 n fuel)))%Z).
  { apply passes_progress. intros k Hk m E.
    destruct (Hp k ltac:(lia)) as (i & Hi & Hx).
    assert (In (row_of 2 (rnd k [m; 2%nat]) i) (accepted 2 m (rnd k [m; 2%nat]))).
    { unfold accepted. apply filter_In. split.
      - apply in_map. apply in_seq. unfold m. lia.
      - destruct (Rltb_spec (norm2 (row_of 2 (rnd k [m; 2%nat]) i)) 1); auto. }
    rewrite E in H0. inversion H0. }
  destruct (Z.leb_spec n (Z.of_nat (length (passes rnd (4 / PI) 2 n fuel)))); [|lia].
  cbn [option_map]. destruct (finish_ok 2 (size_tuple sz) _ ltac:(lia) N H0) as (a & E & _).
  exists a. now rewrite E.
Qed.
(* a source that never gives a point of the disc makes it run for ever. *)
Theorem C73_diverges : exists rnd, unit_src rnd /\
  forall fuel sz, valid_size sz -> (330 <= size (lead sz))%nat -> incircle rnd fuel sz = None.
Proof.
  exists (fun _ s => full s 0). split.
  { intros k s. split; [reflexivity|]. intros. cbn. lra. }
  intros fuel sz V H. pose proof (proj1 (valid_neg sz) V) as N. rewrite lead_dims in H.
  unfold incircle. pose proof (size_dims _ N) as Z1. set (n := zprod (size_tuple sz)) in *.
  destruct (Z.ltb_spec n 330); [lia|]. rewrite reject_eq.
  assert (P : forall k, passes (fun _ s => full s 0) (4 / PI) 2 n k = []).
  { induction k as [|k IH]; [reflexivity|]. cbn [passes]. rewrite IH. cbn [length Z.of_nat].
    destruct (Z.leb_spec n 0); [lia|]. cbn [app]. unfold accepted.
    set (m := passm _ _). clearbody m. set (q := full _ _). 
    assert (forall l, filter (fun p => Rltb (norm2 p) 1) (map (row_of 2 q) l) = []).
    { induction l as [|i l IHl]; [reflexivity|]. cbn [map filter]. rewrite IHl.
      destruct (Rltb_spec (norm2 (row_of 2 q i)) 1) as [E|E]; [|reflexivity].
      unfold q in E. cbn in E. lra. }
    apply H2. }
  rewrite P. cbn [length Z.of_nat]. destruct (Z.leb_spec n 0); [lia|]. reflexivity.
Qed.

(** ** C74 *)
Theorem C74_oncircle rnd sz : unit_src rnd -> valid_size sz ->
  exists a, oncircle rnd sz = Ok a /\ shp a = lead sz ++ [2%nat] /\
    forall idx, inb idx (lead sz) -> sqrt (sq2 a idx) = 1.
Proof.
  intros U V. destruct (oncircle_ok rnd 0 sz U V) as (a & E & S & G). exists a. split; auto. split; auto.
  intros idx Hi. destruct (G idx Hi) as (_ & Ex & Ey). unfold sq2. rewrite Ex, Ey. refine (eq_trans _ sqrt_1). f_equal.
  pose proof (sin2_cos2 (2 * PI * get (rnd 0%nat (lead sz ++ [1%nat])) (idx ++ [0%nat]))) as P.
  unfold Rsqr in P. nra.
Qed.
Lemma circ t x : 0 <= x -> (cos t * sqrt x) ^ 2 + (sin t * sqrt x) ^ 2 = x.
Proof. intros H. rewrite !(Rmult_comm _ (sqrt x)). now apply polar2. Qed.
Theorem C74_onsphere rnd sz : unit_src rnd -> valid_size sz ->
  exists a, onsphere rnd sz = Ok a /\ shp a = lead sz ++ [3%nat] /\
    forall idx, inb idx (lead sz) -> sqrt (sq3 a idx) = 1.
Proof.
  intros U V. destruct (onsphere_ok rnd sz U V) as (a & E & S & G). exists a. split; auto. split; auto.
  intros idx Hi. destruct (G idx Hi) as (_ & Bu & Ex & Ey & Ez). unfold sq3. rewrite Ex, Ey, Ez. refine (eq_trans _ sqrt_1). f_equal.
  set (u := get (rnd 1%nat _) _) in *. rewrite circ by nra. ring.
Qed.
(* a negative length is refused by both *)
Theorem C74_errors rnd sz : unit_src rnd -> ~ valid_size sz ->
  oncircle rnd sz = Err ValueError /\ onsphere rnd sz = Err ValueError.
Proof.
  intros U V. destruct (valid_dec sz) as [V'|N]; [tauto|].
  assert (E : oncircle_k rnd 0 sz = Err ValueError).
  { unfold oncircle_k, random. rewrite neg_dim_app, N. reflexivity. }
  split; [exact E|]. unfold onsphere. rewrite E. reflexivity.
Qed.

(** ** C75 *)
Lemma cbrt_cube z : 0 <= z -> cbrt z ^ 3 = z.
Proof.
  intros H. unfold cbrt. destruct (Reqb_spec z 0) as [-> | Hz]; [cbn; ring|].
  rewrite <- Rpower_pow by apply exp_pos. rewrite Rpower_mult. cbn [INR].
  replace (1 / 3 * (1 + 1 + 1)) with 1 by field. apply Rpower_1. lra.
Qed.
Lemma cbrt_range z : 0 <= z < 1 -> 0 <= cbrt z < 1.
Proof.
  intros [H0 H1]. pose proof (cbrt_cube z H0) as E.
  assert (P : 0 <= cbrt z).
  { unfold cbrt. destruct (Reqb_spec z 0); [lra|]. apply Rlt_le, exp_pos. }
  split; auto. destruct (Rlt_le_dec (cbrt z) 1) as [L|L]; auto. exfalso.
  assert (1 <= cbrt z ^ 3) by (apply pow_R1_Rle; auto). lra.
Qed.

(* The documented claim is false: for fewer than 70 points the radius in the
   x-y plane is sqrt(1 - mu) instead of sqrt(1 - mu*mu), and a source returning
   0, 0, 27/64 gives the point (3/4) * (sqrt 2, 0, -1) of squared norm 27/16. *)
Theorem C75_refuted : exists rnd, unit_src rnd /\
  forall fuel, exists a, insphere rnd fuel SNone = Some (Ok a) /\ shp a = [3%nat] /\
    sq3 a [] = 27 / 16 /\ 1 < sqrt (sq3 a []).
Proof.
  set (rnd := (fun _ s => Nd s (fun idx => if (hd 0 idx =? 2)%nat then 27 / 64 else 0)) : src).
  assert (U : unit_src rnd).
  { intros k s. split; [reflexivity|]. intros idx _. cbn. destruct (_ =? _)%nat; lra. }
  exists rnd. split; auto. intros fuel.
  destruct (insphere_direct_ok rnd [] U eq_refl) as (a & E & S & G).
  exists a. unfold insphere. cbn [size_tuple zprod fold_right]. split; [change (Some (insphere_direct rnd []) = Some (Ok a)); now rewrite E|]. split; [exact S|].
  destruct (G [] (Forall2_nil _)) as (u & t & z & _ & _ & _ & Eu & Et & Ez & Ex & Ey & Ew).
  cbn in Eu, Et, Ez. subst u t z.
  assert (Q : sq3 a [] = 27 / 16).
  { unfold sq3. rewrite Ex, Ey, Ew.
    replace (0 * (2 * PI)) with 0 by ring. rewrite cos_0, sin_0.
    assert (C : cbrt (27 / 64) = 3 / 4).
    { unfold cbrt. destruct (Reqb_spec (27 / 64) 0); [lra|].
      replace (27 / 64) with (Rpower (3 / 4) (INR 3)).
      - rewrite Rpower_mult. cbn [INR]. replace ((1 + 1 + 1) * (1 / 3)) with 1 by field. apply Rpower_1. lra.
      - rewrite Rpower_pow by lra. cbn. field. }
    rewrite C. replace (1 - (2 * 0 - 1)) with 2 by ring.
    pose proof (sqrt_sqrt 2 ltac:(lra)). nra. }
  split; auto. rewrite Q. rewrite <- sqrt_1 at 1. apply sqrt_lt_1; lra.
Qed.
(* What does hold: the shape; for 70 or more points every point is strictly
   inside the unit sphere; for fewer points the squared norm is exactly
   z**(2/3) * (1 - mu + mu*mu), so that the point is inside whenever mu >= 0 (the
   first draw is at least 1/2), outside exactly when that product exceeds 1, and
   always within sqrt 3 of the centre. *)
Theorem C75_partial rnd fuel sz a : unit_src rnd ->
  insphere rnd fuel sz = Some (Ok a) ->
  valid_size sz /\ shp a = lead sz ++ [3%nat] /\
  ((70 <= size (lead sz))%nat -> forall idx, inb idx (lead sz) -> sq3 a idx < 1) /\
  ((size (lead sz) < 70)%nat -> forall idx, inb idx (lead sz) ->
     let d := rnd 0%nat (3%nat :: lead sz ++ [1%nat]) in
     let u := get d (0%nat :: idx ++ [0%nat]) in
     let z := get d (2%nat :: idx ++ [0%nat]) in
     let mu := 2 * u - 1 in
     sq3 a idx = cbrt z ^ 2 * (1 - mu + mu ^ 2) /\ sq3 a idx < 3 /\
     (1 / 2 <= u -> sq3 a idx < 1)).
Proof.
  intros U. rewrite lead_dims, valid_neg. unfold insphere. set (s := size_tuple sz).
  destruct (Z.ltb_spec (zprod s) 70).
  - intros H0. inversion H0 as [H1]. destruct (neg_dim s) eqn:N.
    { unfold insphere_direct, random in H1. rewrite !neg_dim_app, N in H1. cbn in H1. discriminate. }
    destruct (insphere_direct_ok rnd s U N) as (a' & E & Sa & Ga). rewrite E in H1. inversion H1; subst a'.
    split; auto. split; auto. split; [pose proof (size_dims s N); lia|]. intros _ idx Hi.
    destruct (Ga idx Hi) as (u & t & z & Bu & Bt & Bz & Eu & Et & Ez & Ex & Ey & Ew).
    cbn zeta. change (3%nat :: dims s ++ [1%nat]) with ([3%nat] ++ dims s ++ [1%nat]).
    rewrite <- Eu, <- Ez. pose proof (cbrt_range z Bz) as Bc.
    assert (Q : sq3 a idx = cbrt z ^ 2 * (1 - (2 * u - 1) + (2 * u - 1) ^ 2)).
    { unfold sq3. rewrite Ex, Ey, Ew.
      replace ((cbrt z * (sqrt (1 - (2 * u - 1)) * cos (t * (2 * PI)))) ^ 2 +
        (cbrt z * (sqrt (1 - (2 * u - 1)) * sin (t * (2 * PI)))) ^ 2)
      with (cbrt z ^ 2 * (sqrt (1 - (2 * u - 1)) * sqrt (1 - (2 * u - 1)) * (Rsqr (sin (t * (2 * PI))) + Rsqr (cos (t * (2 * PI))))))
        by (unfold Rsqr; ring).
      rewrite sin2_cos2, sqrt_sqrt by lra. ring. }
    split; auto. rewrite Q. assert (C2 : 0 <= cbrt z ^ 2 < 1) by (cbn [pow]; rewrite Rmult_1_r; split; nra).
    set (c := cbrt z ^ 2) in *.
    assert (P : 0 < 1 - (2 * u - 1) + (2 * u - 1) ^ 2 <= 3) by (cbn [pow]; split; nra).
    set (p := 1 - (2 * u - 1) + (2 * u - 1) ^ 2) in *.
    split; [nra|]. intros Hu.
    assert (p <= 1) by (unfold p; cbn [pow]; nra). nra.
  - intros H1. apply reject_ok in H1; [|lia]. destruct H1 as (N & Sa & _ & Ga).
    split; auto. split; auto. split; [|pose proof (size_dims s N); lia].
    intros _ idx Hi. destruct (Ga idx Hi) as [Hin G].
    apply passes_in in Hin. destruct Hin as (Hn & k' & m & i & _ & _ & E).
    rewrite (reject_pts 3 _ (or_intror eq_refl) _ _ E) in Hn. cbn [Nat.eqb] in Hn.
    unfold sq3. rewrite !G by lia. lra.
Qed.

(** ** Concrete cases *)
Definition half : src := fun _ s => full s (1 / 2).
Lemma half_src : unit_src half.
Proof. intros k s. split; [reflexivity|]. intros. cbn. lra. Qed.
(* 3 points of the direct branch, and 400 of the rejection branch: the source
   always gives 1/2, so the points of the latter are the centre, in one pass *)
Example ex_C73_small : exists a, incircle half 0 (SInt 3) = Some (Ok a) /\
  shp a = [3%nat; 2%nat] /\ sq2 a [2%nat] = 1 / 2.
Proof.
  destruct (incircle_direct_ok _ [3%Z] half_src eq_refl) as (a & E & S & G).
  exists a. split; [unfold incircle; cbn -[incircle_direct]; now rewrite E|]. split; [exact S|].
  destruct (G [2%nat]) as (t & z & _ & _ & Et & Ez & Ex & Ey); [repeat constructor|].
  unfold sq2. rewrite Ex, Ey, polar2; rewrite Ez; cbn; lra.
Qed.
Lemma fac_ge c : 4 <= c -> 1 <= c / PI.
Proof.
  intros H. pose proof PI_4 as P4. pose proof PI_RGT_0 as P0.
  apply (Rmult_le_reg_r PI); auto. unfold Rdiv. rewrite Rmult_assoc, Rinv_l, Rmult_1_r by lra. lra.
Qed.
Lemma half_pass d c n : (d = 2%nat \/ d = 3%nat) -> 4 <= c -> (0 < n)%Z ->
  (Z.to_nat n <= length (passes half (c / PI) d n 1))%nat.
Proof.
  intros Hd Hc Hn. cbn [passes length Z.of_nat app].
  destruct (Z.leb_spec n 0); [lia|]. cbn [app]. rewrite Z.sub_0_r. unfold accepted.
  set (m := passm _ _). assert (Hm : (Z.to_nat n <= m)%nat) by (apply passm_ge; [apply fac_ge; auto|lia]).
  clearbody m. set (q := half _ _).
  assert (F : forall l, filter (fun p => Rltb (norm2 p) 1) (map (row_of d q) l) = map (row_of d q) l).
  { induction l as [|i l IHl]; [reflexivity|]. cbn [map filter]. rewrite IHl.
    destruct (Rltb_spec (norm2 (row_of d q i)) 1) as [E|E]; [reflexivity|].
    exfalso. apply E. destruct Hd as [-> | ->]; unfold q; cbn; lra. }
  rewrite F, map_length, seq_length. exact Hm.
Qed.
Example ex_C73_large : exists a, incircle half 1 (SSeq [20; 20]%Z) = Some (Ok a) /\
  shp a = [20%nat; 20%nat; 2%nat] /\ sq2 a [3%nat; 4%nat] < 1.
Proof.
  pose proof (half_pass 2 4 400%Z ltac:(auto) ltac:(lra) ltac:(lia)) as H.
  assert (E : exists a, incircle half 1 (SSeq [20; 20]%Z) = Some (Ok a)).
  { unfold incircle. change (zprod (size_tuple (SSeq [20; 20]%Z))) with 400%Z. cbn [Z.ltb Z.compare Pos.compare Pos.compare_cont].
    rewrite reject_eq. destruct (Z.leb_spec 400 (Z.of_nat (length (passes half (4 / PI) 2 400 1)))) as [L|L]; [|lia].
    destruct (finish_ok 2 [20; 20]%Z _ ltac:(lia) eq_refl L) as (a & E & _). exists a.
    cbn [option_map size_tuple]. now rewrite E. }
  destruct E as (a & E). exists a. split; auto.
  destruct (C73_incircle _ _ _ _ half_src E) as (_ & S & G). split; [exact S|].
  apply G. repeat constructor; lia.
Qed.
Example ex_C74 : exists a, onsphere (fun _ s => full s (1 / 4)) (SSeq [2; 3]%Z) = Ok a /\
  shp a = [2%nat; 3%nat; 3%nat] /\ sqrt (sq3 a [1%nat; 2%nat]) = 1 /\ pt a [1%nat; 2%nat] 2 = - (1 / 2).
Proof.
  assert (U : unit_src (fun _ s => full s (1 / 4))).
  { intros k s. split; [reflexivity|]. intros. cbn. lra. }
  assert (V : valid_size (SSeq [2; 3]%Z)) by (repeat constructor; lia).
  assert (I : inb [1%nat; 2%nat] (lead (SSeq [2; 3]%Z))) by (repeat constructor; cbn; lia).
  destruct (onsphere_ok _ _ U V) as (a & E & S & G).
  destruct (C74_onsphere _ _ U V) as (a' & E' & S' & G'). rewrite E in E'. inversion E'; subst a'.
  exists a. split; auto. split; [exact S|]. split; [apply G'; auto|].
  destruct (G _ I) as (_ & _ & _ & _ & ->). cbn. lra.
Qed.
Example ex_C75 : exists a, insphere half 0 SNone = Some (Ok a) /\ sq3 a [] < 1.
Proof.
  destruct (insphere_direct_ok _ [] half_src eq_refl) as (a & E & S & G).
  assert (E' : insphere half 0 SNone = Some (Ok a)).
  { unfold insphere. cbn -[insphere_direct]. now rewrite E. }
  exists a. split; auto.
  destruct (C75_partial _ _ _ _ half_src E') as (_ & _ & _ & H).
  specialize (H ltac:(cbn; lia) [] (Forall2_nil _)). cbn zeta in H. apply H. cbn. lra.
Qed.
Example ex_C75_large : exists a, insphere half 1 (SInt 70) = Some (Ok a) /\
  forall i, (i < 70)%nat -> sq3 a [i] < 1.
Proof.
  pose proof (half_pass 3 6 70%Z ltac:(auto) ltac:(lra) ltac:(lia)) as H.
  assert (E : exists a, insphere half 1 (SInt 70) = Some (Ok a)).
  { unfold insphere. change (zprod (size_tuple (SInt 70))) with 70%Z. cbn [Z.ltb Z.compare Pos.compare Pos.compare_cont].
    rewrite reject_eq. destruct (Z.leb_spec 70 (Z.of_nat (length (passes half (6 / PI) 3 70 1)))) as [L|L]; [|lia].
    destruct (finish_ok 3 [70]%Z _ ltac:(lia) eq_refl L) as (a & E & _). exists a.
    cbn [option_map size_tuple]. now rewrite E. }
  destruct E as (a & E). exists a. split; auto. intros i Hi.
  destruct (C75_partial _ _ _ _ half_src E) as (_ & S & G & _).
  apply G; [cbn; lia|]. constructor; [exact Hi|constructor].
Qed.

Print Assumptions C73_incircle.
Print Assumptions C74_onsphere.
Print Assumptions C75_refuted.
Print Assumptions C75_partial.
