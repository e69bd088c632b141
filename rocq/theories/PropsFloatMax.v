(* C129: max_ and min_ of doubles, nan and the infinities included.  npplus/basic.py:253-264. *)
From Coq Require Import List Arith ZArith Bool Lia Reals Lra Permutation.
From Flocq Require Import Core BinarySingleNaN.
From Verif Require Import Num PyBase NdArray NdLemmas Basic BasicProofs PropsBasic PropsCat PropsElem Float64 PropsFloat.
Import ListNotations.

Definition isnan (x : f64) : bool := is_nan x.
(* numpy.maximum and numpy.minimum of two doubles, as documented by numpy: nan if either is nan, else the larger or smaller of
   the two.  Which zero of max(0., -0.) is returned depends on the build of numpy, and is left open. *)
Definition maximum_ok (f : f64 -> f64 -> f64) : Prop := forall x y,
  (isnan x || isnan y = true -> isnan (f x y) = true) /\
  (isnan x || isnan y = false -> (f x y = x \/ f x y = y) /\ (x <=? f x y)%K = true /\ (y <=? f x y)%K = true).
Definition minimum_ok (f : f64 -> f64 -> f64) : Prop := forall x y,
  (isnan x || isnan y = true -> isnan (f x y) = true) /\
  (isnan x || isnan y = false -> (f x y = x \/ f x y = y) /\ (f x y <=? x)%K = true /\ (f x y <=? y)%K = true).
(* max_ and min_, basic.py:253-264: a loop over maximum or minimum *)
Section Max.
  Variable f : f64 -> f64 -> f64.
  Fixpoint fext (a : nd f64) (args : list (nd f64)) : res (nd f64) :=
    match args with
    | [] => Ok a
    | b :: r => bind (nd_map2 f a b) (fun a => fext a r)
    end.
  Lemma fext_fold2 a args : fext a args = fold2 f a args.
  Proof. revert a; induction args; intros; cbn; auto. Qed.
End Max.

(** ** The order of the doubles *)
Lemma fle_cases (x y : f64) : isnan x = false -> isnan y = false ->
  (x <=? y)%K = true <-> (x = B754_infinity true \/ y = B754_infinity false \/ (fin x /\ fin y /\ (val x <= val y)%R)).
Proof.
  intros Nx Ny. destruct (is_finite x) eqn:Fx; [destruct (is_finite y) eqn:Fy|].
  - rewrite fle_val by auto. destruct (Rleb_spec (val x) (val y)) as [H|H]; split; intros X; auto; try discriminate.
    destruct X as [-> |[-> |(_ & _ & X)]]; [discriminate|discriminate|lra].
  - destruct y as [s|[|]| |s m e b]; try discriminate Fy; try discriminate Ny.
    + split; [|intros [-> |[H|(_ & H & _)]]; discriminate]. intros H. destruct x as [s|s| |s m e b]; try discriminate Fx; destruct s; discriminate H.
    + split; [auto|]. intros _. destruct x as [s|s| |s m e b]; try discriminate Fx; destruct s; reflexivity.
  - destruct x as [s|[|]| |s m e b]; try discriminate Fx; try discriminate Nx.
    + split; [auto|]. intros _. destruct y as [s|s| |s m e b]; try discriminate Ny; destruct s; reflexivity.
    + split; [|intros [H|[-> |(H & _)]]; try discriminate; reflexivity]. intros H. destruct y as [s|s| |s m e b]; try discriminate Ny; destruct s; try discriminate H; auto.
Qed.
Lemma fle_refl (x : f64) : isnan x = false -> (x <=? x)%K = true.
Proof. intros N. apply fle_cases; auto. destruct (is_finite x) eqn:F; [right; right; repeat split; auto; lra|]. destruct x as [s|[|]| |s m e b]; try discriminate; auto. Qed.
Lemma fle_trans (x y z : f64) : isnan x = false -> isnan y = false -> isnan z = false -> (x <=? y)%K = true -> (y <=? z)%K = true -> (x <=? z)%K = true.
Proof.
  intros Nx Ny Nz H1 H2. apply fle_cases in H1; auto. apply fle_cases in H2; auto. apply fle_cases; auto.
  destruct H1 as [H1|[-> |(F1 & F2 & H1)]]; auto.
  - destruct H2 as [H2|[H2|(H2 & _)]]; auto; discriminate.
  - destruct H2 as [-> |[H2|(F3 & F4 & H2)]]; auto; [discriminate|]. right. right. repeat split; auto. lra.
Qed.
Lemma fle_antisym (x y : f64) : isnan x = false -> isnan y = false -> (x <=? y)%K = true -> (y <=? x)%K = true -> (x =? y)%K = true.
Proof.
  intros Nx Ny H1 H2. apply fle_cases in H1; auto. apply fle_cases in H2; auto.
  destruct H1 as [-> |[-> |(F1 & F2 & H1)]].
  - destruct H2 as [-> |[H2|(_ & H2 & _)]]; try discriminate. reflexivity.
  - destruct H2 as [H2|[-> |(H2 & _)]]; try discriminate. reflexivity.
  - destruct H2 as [-> |[-> |(_ & _ & H2)]]; try discriminate. rewrite feq_val by auto. unfold Reqb. destruct (Req_EM_T (val x) (val y)); [reflexivity|lra].
Qed.

(** ** C129 *)
(* v is the largest (le is <=) or smallest (le is >=) of the doubles in l: nan if one of them is, else one of them that
   bounds all *)
Definition fle (x y : f64) : Prop := (x <=? y)%K = true.
Definition fge (x y : f64) : Prop := (y <=? x)%K = true.
Definition extreme (le : f64 -> f64 -> Prop) (l : list f64) (v : f64) : Prop :=
  ((exists x, In x l /\ x = B754_nan) -> v = B754_nan) /\
  ((forall x, In x l -> x <> B754_nan) -> In v l /\ forall x, In x l -> le x v).
Lemma isnan_iff (x : f64) : isnan x = true <-> x = B754_nan.
Proof. destruct x; split; intros; try discriminate; auto. Qed.
Lemma isnan_not (x : f64) : isnan x = false <-> x <> B754_nan.
Proof. destruct (isnan x) eqn:E; split; intros H; try discriminate; auto; [apply isnan_iff in E; contradiction|intros ->; discriminate]. Qed.
Lemma fold_ext (le : f64 -> f64 -> Prop) f :
  (forall x, isnan x = false -> le x x) ->
  (forall x y z, isnan x = false -> isnan y = false -> isnan z = false -> le x y -> le y z -> le x z) ->
  (forall x y, (isnan x || isnan y = true -> isnan (f x y) = true) /\ (isnan x || isnan y = false -> (f x y = x \/ f x y = y) /\ le x (f x y) /\ le y (f x y))) ->
  forall l x, extreme le (x :: l) (fold_left f l x).
Proof.
  intros R T F. induction l as [|b l IH]; intros x; cbn [fold_left].
  - split; [intros (y & [<-|[]] & H); exact H|]. intros H. split; [left; auto|]. intros y [<-|[]]. apply R, isnan_not, H. left; auto.
  - destruct (IH (f x b)) as [I1 I2]. destruct (F x b) as [F1 F2]. split.
    + intros (y & Hy & E). apply I1. destruct Hy as [<-|[<-|Hy]]; [| |exists y; split; [right; auto|exact E]].
      * exists (f x b). split; [left; auto|]. apply isnan_iff, F1. rewrite E. reflexivity.
      * exists (f x b). split; [left; auto|]. apply isnan_iff, F1. rewrite E. apply orb_true_r.
    + intros H. assert (Nx : isnan x = false) by (apply isnan_not, H; left; auto). assert (Nb : isnan b = false) by (apply isnan_not, H; right; left; auto).
      destruct F2 as (C & Lx & Lb); [rewrite Nx, Nb; reflexivity|]. assert (Nf : isnan (f x b) = false) by (destruct C as [-> | ->]; auto).
      destruct I2 as [J1 J2]. { intros y [<-|Hy]; [now apply isnan_not|apply H; right; right; auto]. }
      assert (Nr : isnan (fold_left f l (f x b)) = false). { destruct J1 as [<-|J1]; [exact Nf|]. apply isnan_not, H. right; right; auto. }
      split.
      * destruct J1 as [<-|J1]; [|right; right; exact J1]. destruct C as [-> | ->]; [left|right; left]; auto.
      * intros y [<-|[<-|Hy]]; [apply (T x (f x b)); auto; apply J2; left; auto|apply (T b (f x b)); auto; apply J2; left; auto|apply J2; right; auto].
Qed.
Lemma fext_at (le : f64 -> f64 -> Prop) f (a : nd f64) args u : (forall l x, extreme le (x :: l) (fold_left f l x)) -> bcast_all (map shp (a :: args)) u ->
  exists r, fext f a args = Ok r /\ shp r = u /\ forall idx, inb idx u -> extreme le (map (fun b => bget b idx) (a :: args)) (get r idx).
Proof.
  intros X H. rewrite fext_fold2. destruct (fold2_ok f args a u H) as (r & E & Sr & G). exists r. split; [exact E|]. split; [exact Sr|].
  intros idx Hi. rewrite G by auto. apply X.
Qed.
Theorem C129_max fmaximum (a : nd f64) args u : maximum_ok fmaximum -> bcast_all (map shp (a :: args)) u ->
  exists r, fext fmaximum a args = Ok r /\ shp r = u /\ forall idx, inb idx u -> extreme fle (map (fun b => bget b idx) (a :: args)) (get r idx).
Proof.
  intros M. apply fext_at. apply fold_ext; [exact fle_refl|exact fle_trans|exact M].
Qed.
Theorem C129_min fminimum (a : nd f64) args u : minimum_ok fminimum -> bcast_all (map shp (a :: args)) u ->
  exists r, fext fminimum a args = Ok r /\ shp r = u /\ forall idx, inb idx u -> extreme fge (map (fun b => bget b idx) (a :: args)) (get r idx).
Proof.
  intros M. apply fext_at. apply fold_ext; [exact fle_refl| |exact M].
  intros x y z Nx Ny Nz H1 H2. exact (fle_trans z y x Nz Ny Nx H2 H1).
Qed.
Print Assumptions C129_max.
Print Assumptions C129_min.
(* the result is determined up to the sign of zero, and so does not depend on the order of the arguments *)
Theorem C129_order (l l' : list f64) v w : Permutation l l' ->
  (extreme fle l v /\ extreme fle l' w) \/ (extreme fge l v /\ extreme fge l' w) -> (v = B754_nan /\ w = B754_nan) \/ (v =? w)%K = true.
Proof.
  intros P X.
  assert (D : (exists x, In x l /\ x = B754_nan) \/ (forall x, In x l -> x <> B754_nan)).
  { clear. induction l as [|b l IH]; [right; intros x []|]. destruct (isnan b) eqn:E; [left; exists b; split; [left; auto|now apply isnan_iff]|].
    destruct IH as [(x & H1 & H2)|H]; [left; exists x; split; [right; auto|auto]|]. right. intros x [<-|Hx]; [now apply isnan_not|auto]. }
  assert (Q : forall x, In x l <-> In x l') by (intros x; split; apply Permutation_in; [exact P|now apply Permutation_sym]).
  destruct D as [(x & H1 & H2)|D].
  - left. destruct X as [[X1 X2]|[X1 X2]]; (split; [apply X1|apply X2]; exists x; split; auto; now apply Q).
  - right. assert (D' : forall x, In x l' -> x <> B754_nan) by (intros x Hx; apply D, Q, Hx).
    destruct X as [[[_ X1] [_ X2]]|[[_ X1] [_ X2]]]; destruct (X1 D) as [I1 B1]; destruct (X2 D') as [I2 B2];
      (apply fle_antisym; [apply isnan_not, D; auto|apply isnan_not, D'; auto| |]).
    + apply B2, Q, I1. + apply B1, Q, I2. + apply B1, Q, I2. + apply B2, Q, I1.
Qed.
Print Assumptions C129_order.
(* the loops of numpy/core/src/umath/loops.c.src:
   in1 >= in2 || isnan(in1) ? in1 : in2, in1 <= in2 || isnan(in1) ? in1 : in2 *)
Definition c_maximum (x y : f64) : f64 := if ((y <=? x)%K || isnan x) then x else y.
Definition c_minimum (x y : f64) : f64 := if ((x <=? y)%K || isnan x) then x else y.
Lemma fle_total (x y : f64) : isnan x = false -> isnan y = false -> (x <=? y)%K = false -> (y <=? x)%K = true.
Proof.
  intros Nx Ny H. apply fle_cases; auto. assert (N : ~ (x = B754_infinity true \/ y = B754_infinity false \/ (fin x /\ fin y /\ (val x <= val y)%R))) by (rewrite <- fle_cases by auto; congruence).
  destruct (is_finite x) eqn:Fx; [destruct (is_finite y) eqn:Fy|].
  - right. right. repeat split; auto. destruct (Rle_lt_dec (val x) (val y)); [exfalso; apply N; auto|lra].
  - destruct y as [s|[|]| |s m e b]; try discriminate; auto. exfalso. auto.
  - destruct x as [s|[|]| |s m e b]; try discriminate; auto. exfalso. auto.
Qed.
Lemma fle_nan (x y : f64) : isnan x = true \/ isnan y = true -> (x <=? y)%K = false.
Proof. intros [H|H]; apply isnan_iff in H; subst; [reflexivity|]. destruct x as [s|[|]| |s m e b]; reflexivity. Qed.
Lemma c_maximum_ok : maximum_ok c_maximum.
Proof.
  intros x y. unfold c_maximum. destruct (isnan x) eqn:Nx; [rewrite orb_true_r; split; [auto|discriminate]|]. rewrite orb_false_r. destruct (isnan y) eqn:Ny; cbn [orb].
  - split; [|discriminate]. intros _. rewrite fle_nan by auto. exact Ny.
  - split; [discriminate|]. intros _. destruct (y <=? x)%K eqn:E; [split; [auto|]; split; [now apply fle_refl|exact E]|]. split; [auto|]. split; [now apply fle_total|now apply fle_refl].
Qed.
Lemma c_minimum_ok : minimum_ok c_minimum.
Proof.
  intros x y. unfold c_minimum. destruct (isnan x) eqn:Nx; [rewrite orb_true_r; split; [auto|discriminate]|]. rewrite orb_false_r. destruct (isnan y) eqn:Ny; cbn [orb].
  - split; [|discriminate]. intros _. rewrite fle_nan by auto. exact Ny.
  - split; [discriminate|]. intros _. destruct (x <=? y)%K eqn:E; [split; [auto|]; split; [now apply fle_refl|exact E]|]. split; [auto|]. split; [now apply fle_total|now apply fle_refl].
Qed.
(* a column (1, nan) and the row (2, inf, -3): the maxima are 2, inf, 1 in the first row and nan in the second *)
Example C129_case : maximum_ok c_maximum /\ minimum_ok c_minimum /\
  let col := vec (B754_nan : f64) [nofZ 1; B754_nan] in let column := Nd [2; 1]%nat (fun i => get col [nth 0 i 0%nat]) in
  let row := vec (B754_nan : f64) [nofZ 2; B754_infinity false; nofZ (-3)] in
  bcast_all (map shp [column; row]) [2; 3]%nat /\
  res_is (fun r => (get r [0; 0]%nat =? nofZ 2)%K && (get r [0; 1]%nat =? B754_infinity false)%K && (get r [0; 2]%nat =? nofZ 1)%K &&
                   isnan (get r [1; 0]%nat) && isnan (get r [1; 1]%nat) && isnan (get r [1; 2]%nat)) (fext c_maximum column [row]) = true.
Proof.
  split; [exact c_maximum_ok|]. split; [exact c_minimum_ok|]. intros col column row. split; [|vm_compute; reflexivity].
  cbn [map]. apply bcast_all_cons. exists [2; 3]%nat. split; [reflexivity|]. apply bcast_all_one. reflexivity.
Qed.
(* arguments that do not broadcast are rejected *)
Theorem C129_rejects f (a : nd f64) args : (~ exists u, bcast_all (map shp (a :: args)) u) -> fext f a args = Err ValueError.
Proof.
  intros H. rewrite fext_fold2.
  assert (V : forall e, fold2 f a args = Err e -> e = ValueError).
  { clear H. revert a; induction args as [|b l IH]; intros a e; cbn [fold2]; [discriminate|]. unfold nd_map2. destruct (bshape _ _); cbn [bind]; [apply IH|congruence]. }
  destruct (fold2 f a args) as [r|e] eqn:E; [|f_equal; now apply V]. exfalso. apply H. exists (shp r). eapply fold2_err; eauto.
Qed.
Print Assumptions C129_rejects.
Example C129_rejects_case : fext c_maximum (full [2]%nat (nofZ 1)) [full [3]%nat (nofZ 1)] = Err ValueError.
Proof.
  apply C129_rejects. intros [u H]. cbn [map] in H. apply bcast_all_cons in H as (v & Hv & _). discriminate Hv.
Qed.
