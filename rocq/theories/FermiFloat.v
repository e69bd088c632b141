(* fermi.py in any arithmetic, in particular in double precision.

   The templates of Fermi.v with the arithmetic, the reading of the decimal literals and the elementary functions as
   parameters; over the reals they are those of Fermi.v ([fd_generic_R], [ifd_generic_R]). *)
From Coq Require Import List Arith ZArith QArith Qreals Bool Lia Reals Lra.
From Flocq Require Import Core Relative BinarySingleNaN.
From Verif Require Import Num PyBase NdArray Fermi FermiProofs Float64.
Import ListNotations.
Open Scope res_scope.

(** ** The templates *)
Section Gen.
Context {K O : Type} {NK : Num K}.
Variable lit : Q -> K.             (* a decimal literal *)
Variables kexp ksqrt : K -> K.     (* numpy.exp, numpy.sqrt *)
Variable kdiv : K -> K -> O.       (* division, the last operation *)
Variable klog : O -> O.            (* numpy.log *)
Variables zero bad : O.            (* zeros_like; outside of the array *)
Local Open Scope num_scope.
(* fermi.py:33-53 *)
Definition fd_generic (anum aden bnum bden : list Q) (f : K -> K) (x : nd K) : res (nd O) :=
  let shape := shp x in
  let x := flat x in
  let mask := map (fun a => a <? nofZ 2) x in
  let y := map (fun _ => zero) x in
  let z := compress mask x in
  let! y :=
    if (length z =? 0)%nat then Ok y
    else
      let z := map kexp z in
      let! p := peval (map lit anum) z in
      let! q := peval (map lit aden) z in
      scatter mask (zipw kdiv (zipw nmul z p) q) y in
  let mask := map negb mask in
  let x := compress mask x in
  let! y :=
    if (length x =? 0)%nat then Ok y
    else
      let z := map (fun a => n1 / (a * a)) x in
      let x := map (fun a => ksqrt a * f a) x in
      let! p := peval (map lit bnum) z in
      let! q := peval (map lit bden) z in
      scatter mask (zipw kdiv (zipw nmul x p) q) y in
  Ok (unflat bad shape y).
(* fermi.py:184-202 *)
Definition ifd_generic (anum aden bnum bden : list Q) (f : K -> K) (x : nd K) : res (nd O) :=
  let shape := shp x in
  let x := flat x in
  let mask := map (fun a => a <? nofZ 4) x in
  let y := map (fun _ => zero) x in
  let z := compress mask x in
  let! y :=
    if (length z =? 0)%nat then Ok y
    else
      let! p := peval (map lit anum) z in
      let! q := peval (map lit aden) z in
      scatter mask (map klog (zipw kdiv (zipw nmul z p) q)) y in
  let mask := map negb mask in
  let x := compress mask x in
  let! y :=
    if (length x =? 0)%nat then Ok y
    else
      let z := map f x in
      let! p := peval (map lit bnum) z in
      let! q := peval (map lit bden) z in
      scatter mask (zipw kdiv p (zipw nmul z q)) y in
  Ok (unflat bad shape y).

(* element by element *)
Definition khorner (c : list K) (z : K) : K :=
  match c with [] => n0 | c0 :: r => fold_left (fun p a => p * z + a) r c0 end.
Lemma kpeval_aux r xs (h : K -> K) :
  fold_left (fun p a => map (fun y => y + a) (zipw nmul p xs)) r (map h xs) =
  map (fun z => fold_left (fun p a => p * z + a) r (h z)) xs.
Proof.
  revert h; induction r as [|a r IH]; intros h; cbn [fold_left]; [reflexivity|].
  rewrite <- (IH (fun z => h z * z + a)). f_equal. clear.
  induction xs as [|x xs IH]; cbn [map zipw]; [reflexivity|]. f_equal. exact IH.
Qed.
Lemma kpeval_horner c xs : (2 <= length c)%nat -> peval c xs = Ok (map (khorner c) xs).
Proof.
  destruct c as [|c0 [|c1 r]]; cbn [length]; try lia. intros _. unfold peval. f_equal.
  apply (kpeval_aux r xs (fun y => c0 * y + c1)).
Qed.
Definition fd_gelem (anum aden bnum bden : list Q) (f : K -> K) (x : K) : O :=
  if x <? nofZ 2 then let z := kexp x in kdiv (z * khorner (map lit anum) z) (khorner (map lit aden) z)
  else let z := n1 / (x * x) in
    kdiv (ksqrt x * f x * khorner (map lit bnum) z) (khorner (map lit bden) z).
Definition ifd_gelem (anum aden bnum bden : list Q) (f : K -> K) (x : K) : O :=
  if x <? nofZ 4 then klog (kdiv (x * khorner (map lit anum) x) (khorner (map lit aden) x))
  else let z := f x in kdiv (khorner (map lit bnum) z) (z * khorner (map lit bden) z).
Lemma fd_generic_ok anum aden bnum bden f x :
  (2 <= length anum)%nat -> (2 <= length aden)%nat -> (2 <= length bnum)%nat -> (2 <= length bden)%nat ->
  exists y, fd_generic anum aden bnum bden f x = Ok y /\ shp y = shp x /\
    forall idx, inb idx (shp x) -> get y idx = fd_gelem anum aden bnum bden f (get x idx).
Proof.
  intros La Lb Lc Ld. rewrite <- (map_length lit) in La, Lb, Lc, Ld. unfold fd_generic. cbv zeta. set (xs := flat x).
  set (P := fun a => a <? nofZ 2). set (N := fun a => negb (a <? nofZ 2)).
  set (lo := fun a => kdiv (kexp a * khorner (map lit anum) (kexp a)) (khorner (map lit aden) (kexp a))).
  set (hi := fun a => kdiv (ksqrt a * f a * khorner (map lit bnum) (n1 / (a * a))) (khorner (map lit bden) (n1 / (a * a)))).
  rewrite (map_map P negb). change (map (fun x0 => negb (P x0)) xs) with (map N xs).
  assert (E1 : forall y, (let! p := peval (map lit anum) (map kexp (compress (map P xs) xs)) in
      let! q := peval (map lit aden) (map kexp (compress (map P xs) xs)) in
      scatter (map P xs) (zipw kdiv (zipw nmul (map kexp (compress (map P xs) xs)) p) q) y) =
      scatter (map P xs) (map lo (compress (map P xs) xs)) y).
  { intros y. rewrite !kpeval_horner by auto. cbn [bind]. rewrite !(map_map kexp), !zipw_map. reflexivity. }
  assert (E2 : forall y, (let! p := peval (map lit bnum) (map (fun a => n1 / (a * a)) (compress (map N xs) xs)) in
      let! q := peval (map lit bden) (map (fun a => n1 / (a * a)) (compress (map N xs) xs)) in
      scatter (map N xs) (zipw kdiv (zipw nmul (map (fun a => ksqrt a * f a) (compress (map N xs) xs)) p) q) y) =
      scatter (map N xs) (map hi (compress (map N xs) xs)) y).
  { intros y. rewrite !kpeval_horner by auto. cbn [bind]. rewrite !(map_map (fun a => n1 / (a * a))), !zipw_map. reflexivity. }
  rewrite E1. erewrite (branch_ok P lo (fun _ => zero) xs). cbn [bind].
  rewrite E2. erewrite (branch_ok N hi _ xs). cbn [bind].
  eexists. split; [reflexivity|]. split; [reflexivity|]. intros idx Hi.
  unfold xs. rewrite unflat_map by auto. unfold fd_gelem, N, P. destruct (get x idx <? nofZ 2); reflexivity.
Qed.
Lemma ifd_generic_ok anum aden bnum bden f x :
  (2 <= length anum)%nat -> (2 <= length aden)%nat -> (2 <= length bnum)%nat -> (2 <= length bden)%nat ->
  exists y, ifd_generic anum aden bnum bden f x = Ok y /\ shp y = shp x /\
    forall idx, inb idx (shp x) -> get y idx = ifd_gelem anum aden bnum bden f (get x idx).
Proof.
  intros La Lb Lc Ld. rewrite <- (map_length lit) in La, Lb, Lc, Ld. unfold ifd_generic. cbv zeta. set (xs := flat x).
  set (P := fun a => a <? nofZ 4). set (N := fun a => negb (a <? nofZ 4)).
  set (lo := fun a => klog (kdiv (a * khorner (map lit anum) a) (khorner (map lit aden) a))).
  set (hi := fun a => kdiv (khorner (map lit bnum) (f a)) (f a * khorner (map lit bden) (f a))).
  rewrite (map_map P negb). change (map (fun x0 => negb (P x0)) xs) with (map N xs).
  assert (E1 : forall y, (let! p := peval (map lit anum) (compress (map P xs) xs) in
      let! q := peval (map lit aden) (compress (map P xs) xs) in
      scatter (map P xs) (map klog (zipw kdiv (zipw nmul (compress (map P xs) xs) p) q)) y) =
      scatter (map P xs) (map lo (compress (map P xs) xs)) y).
  { intros y. rewrite !kpeval_horner by auto. cbn [bind]. set (c := compress (map P xs) xs).
    assert (E : zipw nmul c (map (khorner (map lit anum)) c) = map (fun a => a * khorner (map lit anum) a) c).
    { rewrite <- (map_id c) at 1. apply zipw_map. }
    rewrite E, zipw_map, map_map. reflexivity. }
  assert (E2 : forall y, (let! p := peval (map lit bnum) (map f (compress (map N xs) xs)) in
      let! q := peval (map lit bden) (map f (compress (map N xs) xs)) in
      scatter (map N xs) (zipw kdiv p (zipw nmul (map f (compress (map N xs) xs)) q)) y) =
      scatter (map N xs) (map hi (compress (map N xs) xs)) y).
  { intros y. rewrite !kpeval_horner by auto. cbn [bind]. rewrite !(map_map f), !zipw_map. reflexivity. }
  rewrite E1. erewrite (branch_ok P lo (fun _ => zero) xs). cbn [bind].
  rewrite E2. erewrite (branch_ok N hi _ xs). cbn [bind].
  eexists. split; [reflexivity|]. split; [reflexivity|]. intros idx Hi.
  unfold xs. rewrite unflat_map by auto. unfold ifd_gelem, N, P. destruct (get x idx <? nofZ 4); reflexivity.
Qed.
End Gen.

Lemma fd_generic_R anum aden bnum bden f x :
  fd_template anum aden bnum bden f x = fd_generic Q2R exp sqrt odiv (Some 0%R) None anum aden bnum bden f x.
Proof. reflexivity. Qed.
Lemma ifd_generic_R anum aden bnum bden f x :
  ifd_template anum aden bnum bden f x = ifd_generic Q2R odiv olog (Some 0%R) None anum aden bnum bden f x.
Proof. reflexivity. Qed.
