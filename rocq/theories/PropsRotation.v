(* Property C76 of randomx.py: rotation3 returns rotation matrices. *)
From Coq Require Import List Arith ZArith Bool Lia Reals Lra.
From Verif Require Import Num PyBase NdArray NdLemmas RSum RandomX RandomXProofs PropsRandomX.
Import ListNotations.
Open Scope R_scope.
Open Scope res_scope.

(** Elements of the intermediate arrays *)
Lemma setslice_ok k lo len (v a : nd R) : shp v = upd k len (shp a) ->
  exists c, nd_setslice k lo len v a = Ok c /\ shp c = shp a /\
    forall idx, get c idx =
      if ((lo <=? nth k idx 0) && (nth k idx 0 <? lo + len))%nat
      then bget v (upd k (nth k idx 0 - lo)%nat idx) else get a idx.
Proof.
  intros H. unfold nd_setslice. rewrite H, bto_refl'. eexists. split; [reflexivity|].
  split; [reflexivity|]. intros idx. reflexivity.
Qed.
Lemma setitem_ok k i (v a : nd R) : shp v = remove_at k (shp a) ->
  exists c, nd_setitem k i v a = Ok c /\ shp c = shp a /\
    forall idx, get c idx = if (nth k idx 0 =? i)%nat then bget v (remove_at k idx) else get a idx.
Proof.
  intros H. unfold nd_setitem. rewrite H, bto_refl'. eexists. split; [reflexivity|].
  split; [reflexivity|]. intros idx. reflexivity.
Qed.
Ltac ib := repeat (first [assumption | apply Forall2_cons; [lia|] | apply Forall2_nil]).

(* the transposition applied to an array of shape 3, 3, s *)
Lemma index_of_seq d lo n t : (lo <= d < lo + n)%nat -> index_of d (seq lo n ++ t) = (d - lo)%nat.
Proof.
  revert lo; induction n as [|n IH]; intros lo H; [lia|]. cbn [seq app index_of].
  destruct (Nat.eqb_spec lo d); [lia|]. rewrite IH by lia. lia.
Qed.
Lemma index_of_skip d l t : ~ In d l -> index_of d (l ++ t) = (length l + index_of d t)%nat.
Proof.
  induction l as [|a l IH]; [reflexivity|]. cbn [app index_of length In]. intros H.
  destruct (Nat.eqb_spec a d); [tauto|]. rewrite IH by tauto. reflexivity.
Qed.
Lemma map_nth_seq_id (l : list nat) : map (fun d => nth d l O) (seq 0 (length l)) = l.
Proof.
  apply (nth_ext _ _ O O); [now rewrite map_length, seq_length|]. intros n H.
  rewrite map_length, seq_length in H.
  rewrite (nth_indep _ O (nth O l O)) by (rewrite map_length, seq_length; auto).
  rewrite (map_nth (fun d => nth d l O)), seq_nth by auto. reflexivity.
Qed.
Lemma map_ext_seq {A} (f g : nat -> A) lo n : (forall d, (lo <= d < lo + n)%nat -> f d = g d) ->
  map f (seq lo n) = map g (seq lo n).
Proof. intros H. apply map_ext_in. intros a Ha. apply in_seq in Ha. apply H. lia. Qed.
Lemma seq_from2 n : seq 2 n = map (fun d => (2 + d)%nat) (seq 0 n).
Proof.
  change 2%nat with (0 + 2)%nat at 1.
  apply (nth_ext _ _ O (2 + O)%nat); [now rewrite map_length, !seq_length|]. intros k H.
  rewrite seq_length in H. rewrite (map_nth (fun d => (2 + d)%nat)), !seq_nth by auto. lia.
Qed.
Lemma transpose_roll (m : nd R) d0 d1 s : shp m = d0 :: d1 :: s ->
  let r := transpose m (roll_left 2 (seq 0 (ndim m))) in
  shp r = s ++ [d0; d1] /\
  forall idx i j, length idx = length s -> get r (idx ++ [i; j]) = get m (i :: j :: idx).
Proof.
  intros H. cbn zeta. unfold ndim. rewrite H. cbn [length].
  set (n := length s). unfold roll_left. cbn [seq skipn firstn].
  unfold transpose. cbn [shp get]. rewrite H. split.
  - rewrite map_app. cbn [map nth]. f_equal. rewrite seq_from2, map_map. cbn [Nat.add nth].
    apply map_nth_seq_id.
  - intros idx i j L. f_equal. rewrite app_length, seq_length. cbn [length].
    replace (n + 2)%nat with (2 + n)%nat by lia. rewrite seq_app. cbn [seq app map Nat.add].
    rewrite !index_of_skip by (rewrite in_seq; lia). rewrite seq_length. cbn [index_of Nat.eqb].
    rewrite !app_nth2 by (subst n; lia).
    replace (n + 0 - length idx)%nat with 0%nat by (subst n; lia).
    replace (n + 1 - length idx)%nat with 1%nat by (subst n; lia). cbn [nth].
    do 2 f_equal.
    rewrite (map_ext_seq _ (fun d => nth (d - 2) idx O) 2 n).
    + rewrite seq_from2, map_map.
      rewrite (map_ext _ (fun d => nth d idx O)) by (intros d; f_equal; lia).
      rewrite <- L. apply map_nth_seq_id.
    + intros d Hd. rewrite index_of_seq by lia. apply app_nth1. subst n; lia.
Qed.

(* the matrix as a function of the three draws *)
Definition rot (x0 x1 x2 : R) (i j : nat) : R :=
  let theta := 2 * x0 * PI in
  let phi := 2 * x1 * PI in
  let z := 2 * x2 in
  let v0 := sqrt z * sin phi in
  let v1 := sqrt z * cos phi in
  let v2 := sqrt (2 - z) in
  let st := sin theta in let ct := cos theta in
  let s0 := v0 * ct - v1 * st in
  let s1 := v0 * st + v1 * ct in
  match i, j with
  | 0%nat, 0%nat => v0 * s0 - ct | 0%nat, 1%nat => v0 * s1 - st | 0%nat, 2%nat => v0 * v2
  | 1%nat, 0%nat => v1 * s0 + st | 1%nat, 1%nat => v1 * s1 + - ct | 1%nat, 2%nat => v1 * v2
  | 2%nat, 0%nat => v2 * s0 | 2%nat, 1%nat => v2 * s1 | _, _ => 1 - z
  end.

Lemma rotation3_ok rnd sz : unit_src rnd -> valid_size sz ->
  exists m, rotation3 rnd sz = Ok m /\ shp m = lead sz ++ [3%nat; 3%nat] /\
    forall idx, inb idx (lead sz) ->
      let d := rnd 0%nat (3%nat :: 1%nat :: lead sz) in
      let x := fun k => get d (k :: 0%nat :: idx) in
      (forall k, (k < 3)%nat -> 0 <= x k < 1) /\
      forall i j, (i < 3)%nat -> (j < 3)%nat ->
        get m (idx ++ [i; j]) = rot (x 0%nat) (x 1%nat) (x 2%nat) i j.
Proof.
  intros U V. apply valid_neg in V. rewrite lead_dims. unfold rotation3.
  set (sz' := size_tuple sz) in *.
  assert (N' : neg_dim ([3%Z; 1%Z] ++ sz') = false) by (rewrite neg_dim_app, V; reflexivity).
  destruct (random_ok rnd 0 _ U N') as [-> S0].
  rewrite !dims_app in *. change (dims [3%Z; 1%Z]) with [3%nat; 1%nat] in *.
  set (s := dims sz') in *. cbn [app] in *.
  set (u := rnd 0%nat (3%nat :: 1%nat :: s)) in *. cbn [bind].
  set (a := nd_map (fun x => 2 * x) u).
  set (theta := nd_map (fun x => x * PI) (nd_take 0 0 a)).
  set (phi := nd_map (fun x => x * PI) (nd_take 0 1 a)).
  set (z := nd_take 0 2 a).
  assert (Sth : shp theta = 1%nat :: s) by (unfold theta, a; cbn [nd_map nd_take shp]; rewrite S0; reflexivity).
  assert (Sph : shp phi = 1%nat :: s) by (unfold phi, a; cbn [nd_map nd_take shp]; rewrite S0; reflexivity).
  assert (Sz : shp z = 1%nat :: s) by (unfold z, a; cbn [nd_map nd_take shp]; rewrite S0; reflexivity).
  destruct (map2_eq Rmult (nd_map sqrt z) (nd_map sin phi) _ Sz Sph) as (v0 & -> & S1 & G1). cbn [bind].
  destruct (map2_eq Rmult (nd_map sqrt z) (nd_map cos phi) _ Sz Sph) as (v1 & -> & S2 & G2). cbn [bind].
  destruct (cat_first_ok v0 v1 _ _ _ S1 S2) as (v01 & -> & S3 & G3). cbn [bind].
  destruct (cat_first_ok v01 (nd_map (fun x => sqrt (2 - x)) z) _ _ _ S3 Sz) as (v & -> & S4 & G4). cbn [bind].
  cbn [Nat.add] in S3, S4.
  assert (Sv : forall i, shp (nd_take 0 i v) = s) by (intros i; cbn [nd_take shp]; rewrite S4; reflexivity).
  destruct (map2_lead' Rmult (nd_take 0 0 v) (nd_map cos theta) [1%nat] s (Sv _) Sth) as (a1 & -> & T1 & H1). cbn [bind].
  destruct (map2_lead' Rmult (nd_take 0 1 v) (nd_map sin theta) [1%nat] s (Sv _) Sth) as (a2 & -> & T2 & H2). cbn [bind].
  destruct (map2_lead' Rmult (nd_take 0 0 v) (nd_map sin theta) [1%nat] s (Sv _) Sth) as (a3 & -> & T3 & H3). cbn [bind].
  destruct (map2_lead' Rmult (nd_take 0 1 v) (nd_map cos theta) [1%nat] s (Sv _) Sth) as (a4 & -> & T4 & H4). cbn [bind].
  destruct (map2_eq Rminus a1 a2 _ T1 T2) as (s0 & -> & T5 & H5). cbn [bind].
  destruct (map2_eq Rplus a3 a4 _ T3 T4) as (s1 & -> & T6 & H6). cbn [bind].
  destruct (cat_first_ok s0 s1 _ _ _ T5 T6) as (ss & -> & T7 & H7). cbn [bind Nat.add] in *.
  set (m0 := nd_repeat 3 1 (newaxis1 v)).
  assert (Sm0 : shp m0 = 3%nat :: 3%nat :: s).
  { unfold m0. cbn [nd_repeat newaxis1 shp]. rewrite S4. reflexivity. }
  assert (Gm0 : forall i j idx, get m0 (i :: j :: idx) = get v (i :: idx)) by reflexivity.
  assert (W0 : shp (nd_slice 1 0 2 m0) = [3%nat] ++ 2%nat :: s) by (cbn [nd_slice shp]; rewrite Sm0; reflexivity).
  destruct (map2_lead Rmult (nd_slice 1 0 2 m0) ss [3%nat] (2%nat :: s) W0 T7) as (w1 & -> & SW1 & GW1). cbn [bind].
  destruct (setslice_ok 1 0 2 w1 m0) as (m1 & -> & Sm1 & Gm1). { rewrite SW1, Sm0. reflexivity. } cbn [bind].
  rewrite Sm0 in Sm1.
  destruct (cat_first_ok (nd_map cos theta) (nd_map sin theta) _ _ _ Sth Sth) as (c1 & -> & Sc1 & Gc1). cbn [bind Nat.add] in *.
  assert (W1 : shp (nd_slice 0 0 2 (nd_take 0 0 m1)) = 2%nat :: s) by (cbn [nd_slice nd_take shp]; rewrite Sm1; reflexivity).
  destruct (map2_eq Rminus _ c1 _ W1 Sc1) as (w2 & -> & SW2 & GW2). cbn [bind].
  destruct (setslice_ok 0 0 2 w2 (nd_take 0 0 m1)) as (w3 & -> & SW3 & GW3). { rewrite SW2. cbn [nd_take shp]. rewrite Sm1. reflexivity. } cbn [bind].
  destruct (setitem_ok 0 0 w3 m1) as (m2 & -> & Sm2 & Gm2). { rewrite SW3. reflexivity. } cbn [bind].
  rewrite Sm1 in Sm2.
  destruct (cat_first_ok (nd_map sin theta) (nd_map Ropp (nd_map cos theta)) _ _ _ Sth Sth) as (c2 & -> & Sc2 & Gc2). cbn [bind Nat.add] in *.
  assert (W2 : shp (nd_slice 0 0 2 (nd_take 0 1 m2)) = 2%nat :: s) by (cbn [nd_slice nd_take shp]; rewrite Sm2; reflexivity).
  destruct (map2_eq Rplus _ c2 _ W2 Sc2) as (w4 & -> & SW4 & GW4). cbn [bind].
  destruct (setslice_ok 0 0 2 w4 (nd_take 0 1 m2)) as (w5 & -> & SW5 & GW5). { rewrite SW4. cbn [nd_take shp]. rewrite Sm2. reflexivity. } cbn [bind].
  destruct (setitem_ok 0 1 w5 m2) as (m3 & -> & Sm3 & Gm3). { rewrite SW5. reflexivity. } cbn [bind].
  rewrite Sm2 in Sm3.
  assert (W3 : shp (nd_slice 0 0 2 (nd_take 1 2 m3)) = [2%nat] ++ s) by (cbn [nd_slice nd_take shp]; rewrite Sm3; reflexivity).
  destruct (map2_lead Rmult _ (nd_take 0 2 v) [2%nat] s W3 (Sv _)) as (w6 & -> & SW6 & GW6). cbn [bind].
  destruct (setslice_ok 0 0 2 w6 (nd_take 1 2 m3)) as (w7 & -> & SW7 & GW7). { rewrite SW6. cbn [nd_take shp]. rewrite Sm3. reflexivity. } cbn [bind].
  destruct (setitem_ok 1 2 w7 m3) as (m4 & -> & Sm4 & Gm4). { rewrite SW7. reflexivity. } cbn [bind].
  rewrite Sm3 in Sm4.
  destruct (setitem_ok 0 2 (nd_take 0 0 (nd_map (fun x => 1 - x) z)) (nd_take 0 2 m4)) as (w8 & -> & SW8 & GW8).
  { cbn [nd_take shp nd_map]. rewrite Sz, Sm4. reflexivity. } cbn [bind].
  destruct (setitem_ok 0 2 w8 m4) as (m5 & -> & Sm5 & Gm5). { rewrite SW8. reflexivity. } cbn [bind].
  rewrite Sm4 in Sm5.
  (* the elements before the transposition *)
  assert (E : forall idx, inb idx s -> forall i j, (i < 3)%nat -> (j < 3)%nat ->
     get m5 (i :: j :: idx) = rot (get u (0%nat :: 0%nat :: idx)) (get u (1%nat :: 0%nat :: idx)) (get u (2%nat :: 0%nat :: idx)) i j).
  { intros idx Hi.
    assert (B : forall (w : nd R) l, inb l (shp w) -> bget w l = get w l) by (intros; now apply bget_self).
    assert (Y0 : get v (0%nat :: idx) = sqrt (2 * get u (2%nat :: 0%nat :: idx)) * sin (2 * get u (1%nat :: 0%nat :: idx) * PI)).
    { rewrite G4. cbn [Nat.ltb Nat.leb]. rewrite G3. cbn [Nat.ltb Nat.leb]. rewrite G1 by ib. reflexivity. }
    assert (Y1 : get v (1%nat :: idx) = sqrt (2 * get u (2%nat :: 0%nat :: idx)) * cos (2 * get u (1%nat :: 0%nat :: idx) * PI)).
    { rewrite G4. cbn [Nat.ltb Nat.leb]. rewrite G3. cbn [Nat.ltb Nat.leb Nat.sub]. rewrite G2 by ib. reflexivity. }
    assert (Y2 : get v (2%nat :: idx) = sqrt (2 - 2 * get u (2%nat :: 0%nat :: idx))).
    { rewrite G4. reflexivity. }
    assert (X0 : get ss (0%nat :: idx) = get v (0%nat :: idx) * cos (2 * get u (0%nat :: 0%nat :: idx) * PI)
        - get v (1%nat :: idx) * sin (2 * get u (0%nat :: 0%nat :: idx) * PI)).
    { rewrite H7. cbn [Nat.ltb Nat.leb]. rewrite H5 by ib.
      change (0%nat :: idx) with ([0%nat] ++ idx) at 1 2. rewrite H1, H2 by ib. reflexivity. }
    assert (X1 : get ss (1%nat :: idx) = get v (0%nat :: idx) * sin (2 * get u (0%nat :: 0%nat :: idx) * PI)
        + get v (1%nat :: idx) * cos (2 * get u (0%nat :: 0%nat :: idx) * PI)).
    { rewrite H7. cbn [Nat.ltb Nat.leb Nat.sub]. rewrite H6 by ib.
      change (0%nat :: idx) with ([0%nat] ++ idx) at 1 2. rewrite H3, H4 by ib. reflexivity. }
    (* after m[:, :2] *= s *)
    assert (M1 : forall i j, (i < 3)%nat -> (j < 3)%nat -> get m1 (i :: j :: idx) =
       if (j <? 2)%nat then get v (i :: idx) * get ss (j :: idx) else get v (i :: idx)).
    { intros i j Li Lj. rewrite Gm1. cbn [nth Nat.leb andb upd]. rewrite Nat.sub_0_r. cbn [Nat.add].
      destruct (Nat.ltb_spec j 2); [|apply Gm0].
      rewrite B by (rewrite SW1; cbn [app]; ib).
      change (i :: j :: idx) with ([i] ++ (j :: idx)). rewrite GW1 by ib. reflexivity. }
    assert (M2 : forall i j, (i < 3)%nat -> (j < 3)%nat -> get m2 (i :: j :: idx) =
       if (i =? 0)%nat && (j <? 2)%nat then get m1 (0%nat :: j :: idx) - get c1 (j :: idx) else get m1 (i :: j :: idx)).
    { intros i j Li Lj. rewrite Gm2. cbn [nth remove_at].
      destruct (Nat.eqb_spec i 0); [|reflexivity]. subst i. cbn [andb].
      rewrite B by (rewrite SW3; cbn [nd_take shp]; rewrite Sm1; cbn [remove_at]; ib).
      rewrite GW3. cbn [nth Nat.leb andb upd Nat.add]. rewrite Nat.sub_0_r.
      destruct (Nat.ltb_spec j 2); [|reflexivity].
      rewrite B by (rewrite SW2; ib). rewrite GW2 by ib. reflexivity. }
    assert (M3 : forall i j, (i < 3)%nat -> (j < 3)%nat -> get m3 (i :: j :: idx) =
       if (i =? 1)%nat && (j <? 2)%nat then get m2 (1%nat :: j :: idx) + get c2 (j :: idx) else get m2 (i :: j :: idx)).
    { intros i j Li Lj. rewrite Gm3. cbn [nth remove_at].
      destruct (Nat.eqb_spec i 1); [|reflexivity]. subst i. cbn [andb].
      rewrite B by (rewrite SW5; cbn [nd_take shp]; rewrite Sm2; cbn [remove_at]; ib).
      rewrite GW5. cbn [nth Nat.leb andb upd Nat.add]. rewrite Nat.sub_0_r.
      destruct (Nat.ltb_spec j 2); [|reflexivity].
      rewrite B by (rewrite SW4; ib). rewrite GW4 by ib. reflexivity. }
    assert (M4 : forall i j, (i < 3)%nat -> (j < 3)%nat -> get m4 (i :: j :: idx) =
       if (j =? 2)%nat && (i <? 2)%nat then get m3 (i :: 2%nat :: idx) * get v (2%nat :: idx) else get m3 (i :: j :: idx)).
    { intros i j Li Lj. rewrite Gm4. cbn [nth remove_at].
      destruct (Nat.eqb_spec j 2); [|reflexivity]. subst j. cbn [andb].
      rewrite B by (rewrite SW7; cbn [nd_take shp]; rewrite Sm3; cbn [remove_at]; ib).
      rewrite GW7. cbn [nth Nat.leb andb upd Nat.add]. rewrite Nat.sub_0_r.
      destruct (Nat.ltb_spec i 2); [|reflexivity].
      rewrite B by (rewrite SW6; cbn [app]; ib).
      change (i :: idx) with ([i] ++ idx). rewrite GW6 by ib. reflexivity. }
    assert (M5 : forall i j, (i < 3)%nat -> (j < 3)%nat -> get m5 (i :: j :: idx) =
       if (i =? 2)%nat && (j =? 2)%nat then 1 - 2 * get u (2%nat :: 0%nat :: idx) else get m4 (i :: j :: idx)).
    { intros i j Li Lj. rewrite Gm5. cbn [nth remove_at].
      destruct (Nat.eqb_spec i 2); [|reflexivity]. subst i. cbn [andb].
      rewrite B by (rewrite SW8; cbn [nd_take shp]; rewrite Sm4; cbn [remove_at]; ib).
      rewrite GW8. cbn [nth remove_at].
      destruct (Nat.eqb_spec j 2); [|reflexivity].
      rewrite B by (cbn [nd_take nd_map shp]; rewrite Sz; cbn [remove_at]; ib). reflexivity. }
    intros i j Li Lj. rewrite M5, M4, !M3, !M2, !M1 by lia.
    destruct i as [|[|[|i]]]; [| | |lia]; (destruct j as [|[|[|j]]]; [| | |lia]);
    cbn [Nat.eqb andb Nat.ltb Nat.leb Nat.sub rot]; rewrite ?M3, ?M2, ?M1 by lia;
    cbn [Nat.eqb andb Nat.ltb Nat.leb Nat.sub]; rewrite ?Gc1, ?Gc2; cbn [Nat.eqb andb Nat.ltb Nat.leb Nat.sub]; rewrite ?X0, ?X1, ?Y0, ?Y1, ?Y2; reflexivity. }
  assert (Bd : forall idx, inb idx s -> forall k, (k < 3)%nat -> 0 <= get u (k :: 0%nat :: idx) < 1).
  { intros idx Hi k Hk. apply U. ib. }
  unfold ndim. rewrite Sm5. cbn [length].
  destruct (Nat.ltb_spec 2 (S (S (length s)))) as [L|L].
  - pose proof (transpose_roll m5 _ _ _ Sm5) as [St Gt]. unfold ndim in St, Gt. rewrite Sm5 in St, Gt. cbn [length] in St, Gt.
    eexists. split; [reflexivity|]. split; [exact St|]. intros idx Hi. cbn zeta. split; [apply Bd; auto|].
    intros i j Li Lj. rewrite Gt by apply (inb_length _ _ Hi). apply E; auto.
  - assert (s = []) as Es by (destruct s; [reflexivity|cbn in L; lia]).
    exists m5. split; [reflexivity|]. split; [rewrite Sm5, Es; reflexivity|].
    intros idx Hi. cbn zeta. split; [apply Bd; auto|]. intros i j Li Lj.
    assert (idx = []) as -> by (rewrite Es in Hi; inversion Hi; reflexivity).
    apply E; auto.
Qed.

(** ** C76 *)
Definition mat (a : nd R) (idx : list nat) (i j : nat) : R := get a (idx ++ [i; j]).
Definition delta (i j : nat) : R := if (i =? j)%nat then 1 else 0.
Definition orthogonal3 (m : nat -> nat -> R) : Prop :=
  forall i j, (i < 3)%nat -> (j < 3)%nat -> rsum 3 (fun k => m i k * m j k) = delta i j.
Definition det3 (m : nat -> nat -> R) : R :=
  m 0%nat 0%nat * (m 1%nat 1%nat * m 2%nat 2%nat - m 1%nat 2%nat * m 2%nat 1%nat)
  - m 0%nat 1%nat * (m 1%nat 0%nat * m 2%nat 2%nat - m 1%nat 2%nat * m 2%nat 0%nat)
  + m 0%nat 2%nat * (m 1%nat 0%nat * m 2%nat 1%nat - m 1%nat 1%nat * m 2%nat 0%nat).

Lemma rot_alg v0 v1 v2 st ct z : st * st + ct * ct = 1 -> v0 * v0 + v1 * v1 = z -> v2 * v2 = 2 - z ->
  let s0 := v0 * ct - v1 * st in let s1 := v0 * st + v1 * ct in
  let m i j := match i, j with
  | 0%nat, 0%nat => v0 * s0 - ct | 0%nat, 1%nat => v0 * s1 - st | 0%nat, 2%nat => v0 * v2
  | 1%nat, 0%nat => v1 * s0 + st | 1%nat, 1%nat => v1 * s1 + - ct | 1%nat, 2%nat => v1 * v2
  | 2%nat, 0%nat => v2 * s0 | 2%nat, 1%nat => v2 * s1 | _, _ => 1 - z
  end in
  orthogonal3 m /\ det3 m = 1.
Proof.
  intros A B C. cbn zeta. subst z.
  assert (A' : ct * ct = 1 - st * st) by lra.
  assert (C' : v2 * v2 = 2 - v0 * v0 - v1 * v1) by lra.
  split.
  - intros i j Hi Hj.
    destruct i as [|[|[|i]]]; [| | |lia]; (destruct j as [|[|[|j]]]; [| | |lia]);
    unfold delta; cbn [rsum Nat.eqb]; ring [A' C'].
  - unfold det3. ring [A' C'].
Qed.
Lemma rot_rotation x0 x1 x2 : 0 <= x2 <= 1 -> orthogonal3 (rot x0 x1 x2) /\ det3 (rot x0 x1 x2) = 1.
Proof.
  intros H. unfold rot.
  apply (rot_alg (sqrt (2 * x2) * sin (2 * x1 * PI)) (sqrt (2 * x2) * cos (2 * x1 * PI)) (sqrt (2 - 2 * x2))
    (sin (2 * x0 * PI)) (cos (2 * x0 * PI)) (2 * x2)).
  - exact (sin2_cos2 (2 * x0 * PI)).
  - pose proof (sin2_cos2 (2 * x1 * PI)) as P. unfold Rsqr in P.
    replace (sqrt (2 * x2) * sin (2 * x1 * PI) * (sqrt (2 * x2) * sin (2 * x1 * PI)) +
      sqrt (2 * x2) * cos (2 * x1 * PI) * (sqrt (2 * x2) * cos (2 * x1 * PI)))
      with (sqrt (2 * x2) * sqrt (2 * x2) * (sin (2 * x1 * PI) * sin (2 * x1 * PI) + cos (2 * x1 * PI) * cos (2 * x1 * PI))) by ring.
    rewrite P, sqrt_sqrt by lra. ring.
  - apply sqrt_sqrt. lra.
Qed.

(* For every source and every size, rotation3 returns an array with trailing axes
   3, 3 and every matrix M in it satisfies M M^T = I and det M = 1. *)
Theorem C76_rotation3 rnd sz : unit_src rnd -> valid_size sz ->
  exists m, rotation3 rnd sz = Ok m /\ shp m = lead sz ++ [3%nat; 3%nat] /\
    forall idx, inb idx (lead sz) -> orthogonal3 (mat m idx) /\ det3 (mat m idx) = 1.
Proof.
  intros U V. destruct (rotation3_ok rnd sz U V) as (m & E & S & G). exists m. split; auto. split; auto.
  intros idx Hi. destruct (G idx Hi) as (B & Gm). cbn zeta in Gm.
  set (x := fun k => get (rnd 0%nat (3%nat :: 1%nat :: lead sz)) (k :: 0%nat :: idx)) in *.
  pose proof (B 2%nat ltac:(lia)) as B2. cbn beta in B2. fold (x 2%nat) in B2.
  destruct (rot_rotation (x 0%nat) (x 1%nat) (x 2%nat) ltac:(lra)) as [O D].
  assert (Q : forall i j, (i < 3)%nat -> (j < 3)%nat -> mat m idx i j = rot (x 0%nat) (x 1%nat) (x 2%nat) i j).
  { intros i j Hi' Hj. apply Gm; auto. }
  split.
  - intros i j Hi' Hj. rewrite <- (O i j Hi' Hj). apply rsum_ext. intros k Hk. rewrite !Q by auto. reflexivity.
  - unfold det3. rewrite !Q by lia. exact D.
Qed.
Theorem C76_errors rnd sz : unit_src rnd -> ~ valid_size sz -> rotation3 rnd sz = Err ValueError.
Proof.
  intros U V. destruct (valid_dec sz) as [V'|N]; [tauto|].
  unfold rotation3, random. rewrite neg_dim_app, N. reflexivity.
Qed.
(* Hence multiplication by the transposed matrix preserves lengths. *)
Theorem C76_isometry rnd sz m : unit_src rnd -> rotation3 rnd sz = Ok m ->
  forall idx, inb idx (lead sz) -> forall x : nat -> R,
    rsum 3 (fun j => rsum 3 (fun i => x i * mat m idx i j) ^ 2) = rsum 3 (fun i => x i ^ 2).
Proof.
  intros U E idx Hi x. destruct (valid_dec sz) as [V|N].
  2:{ rewrite C76_errors in E; [discriminate|auto|]. rewrite valid_neg. congruence. }
  destruct (C76_rotation3 rnd sz U V) as (m' & E' & _ & G). rewrite E in E'. inversion E'; subst m'.
  destruct (G idx Hi) as [O _]. set (M := mat m idx) in *.
  assert (O' : forall i j, (i < 3)%nat -> (j < 3)%nat ->
     M i 0%nat * M j 0%nat + M i 1%nat * M j 1%nat + M i 2%nat * M j 2%nat = delta i j).
  { intros i j A B. rewrite <- (O i j A B). cbn [rsum]. ring. }
  cbn [rsum].
  transitivity (x 0%nat ^ 2 * delta 0 0 + x 1%nat ^ 2 * delta 1 1 + x 2%nat ^ 2 * delta 2 2
    + 2 * (x 0%nat * x 1%nat * delta 0 1 + x 0%nat * x 2%nat * delta 0 2 + x 1%nat * x 2%nat * delta 1 2)).
  - rewrite <- !O' by lia. ring.
  - unfold delta. cbn [Nat.eqb]. ring.
Qed.

(* a concrete stack of two matrices: all draws 1/2 *)
Example ex_C76 : exists m, rotation3 half (SInt 2) = Ok m /\ shp m = [2%nat; 3%nat; 3%nat] /\
  mat m [1%nat] 2%nat 2%nat = 0 /\ mat m [1%nat] 1%nat 2%nat = -1 /\ det3 (mat m [1%nat]) = 1.
Proof.
  assert (V : valid_size (SInt 2)) by (cbn; lia).
  assert (I : inb [1%nat] (lead (SInt 2))) by (constructor; [cbn; lia|constructor]).
  destruct (C76_rotation3 half (SInt 2) half_src V) as (m & E & S & G).
  destruct (rotation3_ok half (SInt 2) half_src V) as (m' & E' & _ & G'). rewrite E in E'. inversion E'; subst m'.
  exists m. split; auto. split; [exact S|].
  destruct (G' _ I) as [_ Q]. cbn zeta in Q. unfold mat.
  split; [|split; [|apply G; auto]].
  - rewrite Q by lia. cbn. lra.
  - rewrite Q by lia. cbn. replace (2 * (1 / 2) * PI) with PI by field. rewrite cos_PI.
    replace (2 * (1 / 2)) with 1 by field. replace (2 - 1) with 1 by ring. rewrite sqrt_1. ring.
Qed.

Print Assumptions C76_rotation3.
