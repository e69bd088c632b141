(* C123, C124: what the operators and the constructor write into arrays that they share with their operands. *)
From Coq Require Import List Arith ZArith Bool Lia Reals Lra QArith.
From Verif Require Import Num PyBase NdArray NdLemmas Poly SpecPoly PolyProofs PwPoly PwBase PwCtor PwHeap PropsPw PropsCtor PropsMixed.
Import ListNotations.
Local Open Scope nat_scope.

Section Values.
  Context {K : Type} {NK : Num K}.
  Notation carr := (@carr K).
  Notation mem := (@mem K).
  Notation obj := (@obj K).

  Lemma view_ck ds (c : carr) : ck (view ds c) = ck c.
  Proof. induction ds as [|d ds IH]; [reflexivity|exact IH]. Qed.
  Lemma view_cn ds (c : carr) : cn (view ds c) = cn c.
  Proof. induction ds as [|d ds IH]; [reflexivity|exact IH]. Qed.
  Lemma view_fix ds xk (c : carr) : view ds (per_fix xk c) = per_fix xk (view ds c).
  Proof. induction ds as [|d ds IH]; [reflexivity|]. cbn [view fold_right]. fold (view ds (per_fix xk c)). rewrite IH. reflexivity. Qed.

  (* the pieces of a computation: v what the model without memory gives, w the places of m that may have changed, l the
     place of the old array that the result may use *)
  Definition runs (x : res obj * mem) (v : res (@pwpoly K)) (m : mem) (w : nat -> Prop) (l : nat) : Prop :=
    (forall k, k < top m -> ~ w k -> cells (snd x) k = cells m k) /\ top m <= top (snd x) /\
    match fst x with Ok o => v = Ok (deref (snd x) o) /\ oloc o < top (snd x) /\ (oloc o = l \/ top m <= oloc o) | Err e => v = Err e end.
  Lemma hnew_runs cl xk l ds m : l < top m -> runs (hnew cl xk l ds m) (rawinit cl xk (view ds (cells m l))) m (fun k => cl = Per /\ k = l) l.
  Proof.
    intros Hl. unfold hnew, rawinit, runs. rewrite view_ck, view_cn. set (xk0 := if length xk =? ck (cells m l) then xk else firstn 1 xk ++ xk).
    destruct cl; [cbn [fst snd oloc]; repeat split; auto|]. destruct (_ <? 2); [cbn [fst snd]; repeat split; auto|].
    destruct (_ =? 0); [cbn [fst snd]; repeat split; auto|]. cbn [fst snd oloc top write]. split.
    - intros k Hk N. unfold write. cbn [cells]. destruct (Nat.eqb_spec k l); [exfalso; apply N; auto|reflexivity].
    - split; [lia|]. split; [|split; [exact Hl|auto]]. unfold deref, arr, write. cbn [ocl oxk0 odims oloc oper cells]. rewrite Nat.eqb_refl, view_fix. reflexivity.
  Qed.
  Lemma fresh_runs cl xk c m l : runs (hnew_fresh cl xk c m) (rawinit cl xk c) m (fun _ => False) l.
  Proof.
    unfold hnew_fresh. destruct (hnew_runs cl xk (top m) [] (alloc m c)) as (A & B & C); [cbn; lia|].
    assert (E : view [] (cells (alloc m c) (top m)) = c) by (cbn; rewrite Nat.eqb_refl; reflexivity). rewrite E in C.
    split; [|split].
    - intros k Hk _. rewrite A; [|cbn; lia|lia]. cbn. destruct (Nat.eqb_spec k (top m)); [lia|reflexivity].
    - cbn in B. lia.
    - destruct (fst _); [|exact C]. destruct C as (C1 & C2 & C3). split; [exact C1|]. split; [exact C2|]. right. destruct C3; cbn in *; lia.
  Qed.
  Lemma ret_runs o m : oloc o < top m -> runs (Ok o, m) (Ok (deref m o)) m (fun _ => False) (oloc o).
  Proof. intros H. repeat split; auto. Qed.
  Lemma haddknots_runs o xk m l : runs (haddknots o xk m) (addknots_raw (deref m o) xk) m (fun _ => False) l.
  Proof.
    unfold haddknots, addknots_raw. destruct (_ =? 0); [repeat split; auto|]. apply fresh_runs.
  Qed.
  Lemma rawinit_csh cl xk (c : carr) r : rawinit cl xk c = Ok r -> csh (pc r) = csh c /\ cn (pc r) = cn c /\ pcl r = cl.
  Proof.
    unfold rawinit. destruct cl; [intros E; injection E as <-; auto|]. destruct (_ <? 2); [discriminate|]. destruct (_ =? 0); [discriminate|].
    intros E; injection E as <-; auto.
  Qed.
  Lemma arr_keep (m m' : mem) o : cells m' (oloc o) = cells m (oloc o) -> arr m' o = arr m o.
  Proof. unfold arr. intros ->. reflexivity. Qed.
  Lemma deref_keep (m m' : mem) o : cells m' (oloc o) = cells m (oloc o) -> deref m' o = deref m o.
  Proof. unfold deref. intros H. rewrite (arr_keep m m' o H). reflexivity. Qed.

  (* the same computation without memory *)
  Definition pop (skip : bool) (comb : carr -> carr -> res carr) (p q : @pwpoly K) : res (@pwpoly K) :=
    (let! (this, other) := binary p q skip in let! c := comb (pc this) other in new (pcl p) (pxk0 this) c)%res.
  Lemma pop_padd p q : padd p q = pop false add_comb p q.
  Proof. reflexivity. Qed.
  Lemma pop_psub p q : psub p q = pop false sub_comb p q.
  Proof. reflexivity. Qed.
  Lemma pop_pmul p q : pmul p q = pop true mul_comb p q.
  Proof. unfold pmul, pop, mul_comb. destruct (binary p q true) as [[t o]|e]; [|reflexivity]. cbn [bind]. destruct (_ <? _); reflexivity. Qed.

  (* the four steps before the knots *)
  Definition prep (p q : obj) (skip : bool) (m : mem) : res (obj * obj) * mem :=
    let cl := ocl p in
    let nd := Nat.max (cn (arr m p)) (cn (arr m q)) in
    hbind (if negb skip && negb (cn (arr m p) =? nd)%nat then hnew_fresh cl (oxk0 p) (cpad nd (arr m p)) m else (Ok p, m)) (fun p1 m1 =>
    hbind (if negb skip && negb (cn (arr m1 q) =? nd)%nat then hnew_fresh cl (oxk0 q) (cpad nd (arr m1 q)) m1 else (Ok q, m1)) (fun q1 m2 =>
    let la := length (csh (arr m2 p1)) in
    let lb := length (csh (arr m2 q1)) in
    hbind (if (la <? lb)%nat then hnew cl (oxk0 p1) (oloc p1) ((lb - la)%nat :: odims p1) m2 else (Ok p1, m2)) (fun p2 m3 =>
    hbind (if (lb <? la)%nat then hnew cl (oxk0 q1) (oloc q1) ((la - lb)%nat :: odims q1) m3 else (Ok q1, m3)) (fun q2 m4 =>
    (Ok (p2, q2), m4))))).
  Definition knots2 (p2 q2 : obj) (m4 : mem) : res (obj * obj) * mem :=
    match allknots tol6 (deref m4 p2) [pxk (deref m4 q2)] with
    | Err e => (Err e, m4)
    | Ok (same, xk) =>
      if (same : bool) then (Ok (p2, q2), m4)
      else hbind (haddknots p2 xk m4) (fun p3 m5 => hbind (haddknots q2 xk m5) (fun q3 m6 => (Ok (p3, q3), m6)))
    end.
  Lemma hbinary_prep p q skip m : hbinary p q skip m = hbind (prep p q skip m) (fun pq m4 => knots2 (fst pq) (snd pq) m4).
  Proof.
    unfold hbinary, prep. cbv zeta. destruct (if negb skip && negb (cn (arr m p) =? _) then _ else _) as [[p1|e] m1]; [|reflexivity]. cbn [hbind].
    destruct (if negb skip && negb (cn (arr m1 q) =? _) then _ else _) as [[q1|e] m2]; [|reflexivity]. cbn [hbind].
    destruct (if _ <? _ then hnew _ (oxk0 p1) _ _ _ else _) as [[p2|e] m3]; [|reflexivity]. cbn [hbind].
    destruct (if _ <? _ then hnew _ (oxk0 q1) _ _ _ else _) as [[q2|e] m4]; reflexivity.
  Qed.
  Definition vprep (p q : @pwpoly K) (skip : bool) : res (@pwpoly K * @pwpoly K) :=
    (let cl := pcl p in
    let nd := Nat.max (cn (pc p)) (cn (pc q)) in
    let! p1 := if negb skip && negb (cn (pc p) =? nd)%nat then new cl (pxk0 p) (cpad nd (pc p)) else Ok p in
    let! q1 := if negb skip && negb (cn (pc q) =? nd)%nat then new cl (pxk0 q) (cpad nd (pc q)) else Ok q in
    let la := length (csh (pc p1)) in
    let lb := length (csh (pc q1)) in
    let! p2 := if (la <? lb)%nat then new cl (pxk0 p1) (cdims (lb - la) (pc p1)) else Ok p1 in
    let! q2 := if (lb <? la)%nat then new cl (pxk0 q1) (cdims (la - lb) (pc q1)) else Ok q1 in
    Ok (p2, q2))%res.
  Definition vknots (p2 q2 : @pwpoly K) : res (@pwpoly K * carr) :=
    (let! (same, xk) := allknots tol6 p2 [pxk q2] in
    if same then Ok (p2, pc q2)
    else let! p3 := addknots_raw p2 xk in let! q3 := addknots_raw q2 xk in Ok (p3, pc q3))%res.
  Lemma binary_prep p q skip : binary p q skip = (let! (p2, q2) := vprep p q skip in vknots p2 q2)%res.
  Proof.
    unfold binary, vprep, vknots. cbv zeta. destruct (if negb skip && negb (cn (pc p) =? _) then _ else _) as [p1|]; [|reflexivity]. cbn [bind].
    destruct (if negb skip && negb (cn (pc q) =? _) then _ else _) as [q1|]; [|reflexivity]. cbn [bind].
    destruct (if _ <? _ then new _ (pxk0 p1) _ else _) as [p2|]; [|reflexivity]. cbn [bind].
    destruct (if _ <? _ then new _ (pxk0 q1) _ else _) as [q2|]; reflexivity.
  Qed.
  (* the places that prep may write: those of the operands, if the first one is periodic and the number of dimensions differs *)
  Definition touched (p q : obj) (skip : bool) (m : mem) (k : nat) : Prop :=
    ocl p = Per /\
    (k = oloc p /\ length (csh (arr m p)) < length (csh (arr m q)) /\ (skip = true \/ cn (arr m q) <= cn (arr m p)) \/
     k = oloc q /\ length (csh (arr m q)) < length (csh (arr m p)) /\ (skip = true \/ cn (arr m p) <= cn (arr m q))).
  Lemma prep_runs p q skip m : oloc p < top m -> oloc q < top m ->
    (oloc p <> oloc q \/ length (csh (arr m p)) = length (csh (arr m q))) ->
    let x := prep p q skip m in
    (forall k, k < top m -> ~ touched p q skip m k -> cells (snd x) k = cells m k) /\ top m <= top (snd x) /\
    match fst x with
    | Ok (p2, q2) => vprep (deref m p) (deref m q) skip = Ok (deref (snd x) p2, deref (snd x) q2) /\
        oloc p2 < top (snd x) /\ oloc q2 < top (snd x)
    | Err e => vprep (deref m p) (deref m q) skip = Err e
    end.
  Proof.
    intros Lp Lq HD x. subst x. unfold prep, vprep. cbv zeta. change (pcl (deref m p)) with (ocl p). change (pc (deref m p)) with (arr m p).
    change (pc (deref m q)) with (arr m q). change (pxk0 (deref m p)) with (oxk0 p). change (pxk0 (deref m q)) with (oxk0 q).
    set (nd := Nat.max _ _).
    (* step 1 *)
    set (bp := negb skip && negb (cn (arr m p) =? nd)). 
    assert (S1 : runs (if bp then hnew_fresh (ocl p) (oxk0 p) (cpad nd (arr m p)) m else (Ok p, m))
                      (if bp then new (ocl p) (oxk0 p) (cpad nd (arr m p)) else Ok (deref m p)) m (fun _ => False) (oloc p)).
    { destruct bp; [apply fresh_runs|apply ret_runs, Lp]. }
    assert (V1 : forall r, (if bp then new (ocl p) (oxk0 p) (cpad nd (arr m p)) else Ok (deref m p)) = Ok r -> csh (pc r) = csh (arr m p)).
    { intros r. destruct bp; [intros E; apply rawinit_csh in E as [E _]; exact E|intros E; injection E as <-; reflexivity]. }
    assert (F1 : forall o, fst (if bp then hnew_fresh (ocl p) (oxk0 p) (cpad nd (arr m p)) m else (Ok p, m)) = Ok o -> bp = false -> o = p).
    { intros o E ->. cbn in E. congruence. }
    assert (G1 : forall o, fst (if bp then hnew_fresh (ocl p) (oxk0 p) (cpad nd (arr m p)) m else (Ok p, m)) = Ok o -> bp = true -> oloc o = top m).
    { intros o E Eb. rewrite Eb in E. unfold hnew_fresh, hnew in E. cbv zeta in E. destruct (ocl p); cbn in E; [injection E as <-; reflexivity|].
      destruct (_ <=? 1); [discriminate|]. destruct (_ =? 0); [discriminate|]. cbn in E. injection E as <-. reflexivity. }
    destruct (if bp then hnew_fresh _ _ _ _ else _) as [rp m1]. destruct S1 as (A1 & B1 & C1). cbn [fst snd] in *.
    destruct rp as [p1|e]; [|cbn [hbind fst snd]; rewrite C1; cbn [bind]; repeat split; auto].
    destruct C1 as (C1 & D1 & E1). rewrite C1. cbn [bind hbind]. specialize (V1 _ C1). cbn [pc deref] in V1.
    assert (Eq1 : cells m1 (oloc q) = cells m (oloc q)) by (apply A1; auto). rewrite (arr_keep m m1 q Eq1).
    (* step 2 *)
    set (bq := negb skip && negb (cn (arr m q) =? nd)).
    assert (S2 : runs (if bq then hnew_fresh (ocl p) (oxk0 q) (cpad nd (arr m q)) m1 else (Ok q, m1))
                      (if bq then new (ocl p) (oxk0 q) (cpad nd (arr m q)) else Ok (deref m q)) m1 (fun _ => False) (oloc q)).
    { destruct bq; [apply fresh_runs|]. rewrite <- (deref_keep m m1 q Eq1). apply ret_runs. lia. }
    assert (V2 : forall r, (if bq then new (ocl p) (oxk0 q) (cpad nd (arr m q)) else Ok (deref m q)) = Ok r -> csh (pc r) = csh (arr m q)).
    { intros r. destruct bq; [intros E; apply rawinit_csh in E as [E _]; exact E|intros E; injection E as <-; reflexivity]. }
    assert (G2 : forall o, fst (if bq then hnew_fresh (ocl p) (oxk0 q) (cpad nd (arr m q)) m1 else (Ok q, m1)) = Ok o -> bq = true -> oloc o = top m1).
    { intros o E Eb. rewrite Eb in E. unfold hnew_fresh, hnew in E. cbv zeta in E. destruct (ocl p); cbn in E; [injection E as <-; reflexivity|].
      destruct (_ <=? 1); [discriminate|]. destruct (_ =? 0); [discriminate|]. cbn in E. injection E as <-. reflexivity. }
    destruct (if bq then hnew_fresh _ _ _ _ else _) as [rq m2]. destruct S2 as (A2 & B2 & C2). cbn [fst snd] in *.
    destruct rq as [q1|e]; [|cbn [hbind fst snd]; rewrite C2; cbn [bind]; repeat split; [|lia]; intros k Hk _; rewrite A2, A1 by (auto; lia); reflexivity].
    destruct C2 as (C2 & D2 & E2). rewrite C2. cbn [bind hbind]. specialize (V2 _ C2). cbn [pc deref] in V2.
    assert (Ep2 : cells m2 (oloc p1) = cells m1 (oloc p1)) by (apply A2; auto).
    rewrite <- (deref_keep m1 m2 p1 Ep2). change (pc (deref m2 p1)) with (arr m2 p1). change (pc (deref m2 q1)) with (arr m2 q1).
    change (pxk0 (deref m2 p1)) with (oxk0 p1). change (pxk0 (deref m2 q1)) with (oxk0 q1).
    rewrite (arr_keep m1 m2 p1 Ep2), V1, V2. set (la := length (csh (arr m p))) in *. set (lb := length (csh (arr m q))) in *.
    assert (NE : la <> lb -> oloc p1 <> oloc q1) by (intros N; destruct HD as [HD|HD]; [|contradiction]; destruct E1, E2; lia).
    assert (U : forall k, k < top m -> cells m2 k = cells m k) by (intros k Hk; rewrite A2, A1 by (auto; lia); reflexivity).
    assert (Tp : forall k, k < top m -> k = oloc p1 -> la < lb -> ocl p = Per -> touched p q skip m k).
    { intros k Hk Ek Hl Hc. split; [exact Hc|]. left. destruct bp eqn:Eb; [specialize (G1 p1 eq_refl eq_refl); lia|]. rewrite (F1 p1 eq_refl eq_refl) in Ek.
      split; [exact Ek|]. split; [exact Hl|]. unfold bp in Eb. destruct skip; [left; reflexivity|right]. cbn in Eb. apply negb_false_iff, Nat.eqb_eq in Eb. unfold nd in Eb. lia. }
    assert (Tq : forall k, k < top m -> k = oloc q1 -> lb < la -> ocl p = Per -> touched p q skip m k).
    { intros k Hk Ek Hl Hc. split; [exact Hc|]. right. destruct bq eqn:Eb; [specialize (G2 q1 eq_refl eq_refl); lia|]. destruct E2 as [E2|E2]; [|lia].
      split; [lia|]. split; [exact Hl|]. unfold bq in Eb. destruct skip; [left; reflexivity|right]. cbn in Eb. apply negb_false_iff, Nat.eqb_eq in Eb. unfold nd in Eb. lia. }
    (* steps 3 and 4 *)
    destruct (lt_eq_lt_dec la lb) as [[Hl|Hl]|Hl].
    - destruct (Nat.ltb_spec la lb); [|lia]. destruct (Nat.ltb_spec lb la); [lia|].
      pose proof (hnew_runs (ocl p) (oxk0 p1) (oloc p1) ((lb - la) :: odims p1) m2 ltac:(lia)) as (A3 & B3 & C3).
      change (view ((lb - la) :: odims p1) (cells m2 (oloc p1))) with (cdims (lb - la) (arr m2 p1)) in C3. rewrite (arr_keep m1 m2 p1 Ep2) in C3.
      destruct (hnew _ _ _ _ _) as [r3 m3]. cbn [fst snd] in *.
      assert (UU : forall k, k < top m -> ~ touched p q skip m k -> cells m3 k = cells m k).
      { intros k Hk N. rewrite A3, U; auto; [lia|]. intros [Hc Hk']. apply N. apply Tp; auto. }
      unfold new. destruct r3 as [p2|e]; cbn [hbind fst snd]; [|rewrite C3; cbn [bind]; split; [exact UU|split; [lia|reflexivity]]].
      destruct C3 as (C3 & D3 & E3). rewrite C3. cbn [bind]. split; [exact UU|]. split; [lia|]. split; [|lia].
      rewrite (deref_keep m2 m3 q1); [reflexivity|]. apply A3; [lia|]. intros [_ X]. apply NE; [lia|congruence].
    - destruct (Nat.ltb_spec la lb); [lia|]. destruct (Nat.ltb_spec lb la); [lia|]. cbn [hbind fst snd bind].
      split; [intros k Hk _; apply U, Hk|]. split; [lia|]. split; [reflexivity|lia].
    - destruct (Nat.ltb_spec la lb); [lia|]. destruct (Nat.ltb_spec lb la); [|lia]. cbn [hbind bind].
      pose proof (hnew_runs (ocl p) (oxk0 q1) (oloc q1) ((la - lb) :: odims q1) m2 ltac:(lia)) as (A3 & B3 & C3).
      change (view ((la - lb) :: odims q1) (cells m2 (oloc q1))) with (cdims (la - lb) (arr m2 q1)) in C3.
      destruct (hnew _ _ _ _ _) as [r3 m3]. cbn [fst snd] in *.
      assert (UU : forall k, k < top m -> ~ touched p q skip m k -> cells m3 k = cells m k).
      { intros k Hk N. rewrite A3, U; auto; [lia|]. intros [Hc Hk']. apply N. apply Tq; auto. }
      unfold new. destruct r3 as [q2|e]; cbn [hbind fst snd]; [|rewrite C3; cbn [bind]; split; [exact UU|split; [lia|reflexivity]]].
      destruct C3 as (C3 & D3 & E3). rewrite C3. cbn [bind]. split; [exact UU|]. split; [lia|]. split; [|lia].
      rewrite (deref_keep m2 m3 p1); [reflexivity|]. apply A3; [lia|]. intros [_ X]. apply NE; [lia|congruence].
  Qed.

  (* what is written: the columns that PerPwPoly puts in *)
  Definition fixed (m : mem) (o : obj) : carr :=
    per_fix (tl (if length (oxk0 o) =? ck (cells m (oloc o)) then oxk0 o else firstn 1 (oxk0 o) ++ oxk0 o)) (cells m (oloc o)).
  Lemma hnew_writes cl xk l ds m : let x := hnew cl xk l ds m in
    forall k, cells (snd x) k = cells m k \/
      (k = l /\ cells (snd x) k = per_fix (tl (if length xk =? ck (cells m l) then xk else firstn 1 xk ++ xk)) (cells m l)).
  Proof.
    intros x k. subst x. unfold hnew. cbv zeta. destruct cl; [left; reflexivity|]. destruct (_ <? 2); [left; reflexivity|].
    destruct (_ =? 0); [left; reflexivity|]. unfold write. cbn [snd cells]. destruct (Nat.eqb_spec k l); [right; auto|left; reflexivity].
  Qed.
  Lemma prep_writes p q skip m : oloc p < top m -> oloc q < top m ->
    (oloc p <> oloc q \/ length (csh (arr m p)) = length (csh (arr m q))) ->
    forall k, k < top m -> cells (snd (prep p q skip m)) k = cells m k \/
      exists o, (o = p \/ o = q) /\ k = oloc o /\ cells (snd (prep p q skip m)) k = fixed m o.
  Proof.
    intros Lp Lq HD k Hk. unfold prep. cbv zeta. set (nd := Nat.max _ _). set (bp := negb skip && negb (cn (arr m p) =? nd)).
    assert (S1 : runs (if bp then hnew_fresh (ocl p) (oxk0 p) (cpad nd (arr m p)) m else (Ok p, m))
                      (if bp then new (ocl p) (oxk0 p) (cpad nd (arr m p)) else Ok (deref m p)) m (fun _ => False) (oloc p)).
    { destruct bp; [apply fresh_runs|apply ret_runs, Lp]. }
    assert (F1 : forall o, fst (if bp then hnew_fresh (ocl p) (oxk0 p) (cpad nd (arr m p)) m else (Ok p, m)) = Ok o -> oloc o < top m -> o = p).
    { intros o. destruct bp; [|cbn; congruence]. unfold hnew_fresh, hnew. cbv zeta. destruct (ocl p); cbn; [intros E; injection E as <-; cbn; lia|].
      destruct (_ <=? 1); [discriminate|]. destruct (_ =? 0); [discriminate|]. cbn. intros E. injection E as <-. cbn. lia. }
    assert (V1 : forall r, (if bp then new (ocl p) (oxk0 p) (cpad nd (arr m p)) else Ok (deref m p)) = Ok r -> csh (pc r) = csh (arr m p)).
    { intros r. destruct bp; [intros E; apply rawinit_csh in E as [E _]; exact E|intros E; injection E as <-; reflexivity]. }
    destruct (if bp then hnew_fresh _ _ _ _ else _) as [rp m1]. destruct S1 as (A1 & B1 & C1). cbn [fst snd] in *.
    destruct rp as [p1|e]; cbn [hbind fst snd]; [|left; apply A1; auto]. destruct C1 as (C1 & D1 & E1). specialize (V1 _ C1). cbn [pc deref] in V1.
    assert (Eq1 : cells m1 (oloc q) = cells m (oloc q)) by (apply A1; auto). rewrite (arr_keep m m1 q Eq1).
    set (bq := negb skip && negb (cn (arr m q) =? nd)).
    assert (S2 : runs (if bq then hnew_fresh (ocl p) (oxk0 q) (cpad nd (arr m q)) m1 else (Ok q, m1))
                      (if bq then new (ocl p) (oxk0 q) (cpad nd (arr m q)) else Ok (deref m q)) m1 (fun _ => False) (oloc q)).
    { destruct bq; [apply fresh_runs|]. rewrite <- (deref_keep m m1 q Eq1). apply ret_runs. lia. }
    assert (V2 : forall r, (if bq then new (ocl p) (oxk0 q) (cpad nd (arr m q)) else Ok (deref m q)) = Ok r -> csh (pc r) = csh (arr m q)).
    { intros r. destruct bq; [intros E; apply rawinit_csh in E as [E _]; exact E|intros E; injection E as <-; reflexivity]. }
    assert (F2 : forall o, fst (if bq then hnew_fresh (ocl p) (oxk0 q) (cpad nd (arr m q)) m1 else (Ok q, m1)) = Ok o -> oloc o < top m -> o = q).
    { intros o. destruct bq; [|cbn; congruence]. unfold hnew_fresh, hnew. cbv zeta. destruct (ocl p); cbn; [intros E; injection E as <-; cbn; lia|].
      destruct (_ <=? 1); [discriminate|]. destruct (_ =? 0); [discriminate|]. cbn. intros E. injection E as <-. cbn. lia. }
    destruct (if bq then hnew_fresh _ _ _ _ else _) as [rq m2]. destruct S2 as (A2 & B2 & C2). cbn [fst snd] in *.
    assert (U : forall k, k < top m -> cells m2 k = cells m k) by (intros j Hj; rewrite A2, A1 by (auto; lia); reflexivity).
    destruct rq as [q1|e]; cbn [hbind fst snd]; [|left; apply U; auto]. destruct C2 as (C2 & D2 & E2). specialize (V2 _ C2). cbn [pc deref] in V2.
    assert (Ep2 : cells m2 (oloc p1) = cells m1 (oloc p1)) by (apply A2; auto). rewrite (arr_keep m1 m2 p1 Ep2), V1, V2.
    set (la := length (csh (arr m p))) in *. set (lb := length (csh (arr m q))) in *.
    destruct (lt_eq_lt_dec la lb) as [[Hl|Hl]|Hl].
    - destruct (Nat.ltb_spec la lb); [|lia]. destruct (Nat.ltb_spec lb la); [lia|].
      pose proof (hnew_writes (ocl p) (oxk0 p1) (oloc p1) ((lb - la) :: odims p1) m2 k) as Wr. cbv zeta in Wr.
      destruct (hnew _ _ _ _ _) as [r3 m3]. cbn [snd] in Wr.
      assert (G : cells m3 k = cells m k \/ exists o, (o = p \/ o = q) /\ k = oloc o /\ cells m3 k = fixed m o).
      { destruct Wr as [Wr|[Ek Wr]]; [left; rewrite Wr; apply U, Hk|]. assert (p1 = p) as -> by (apply F1; [reflexivity|lia]).
        right. exists p. split; [auto|]. split; [exact Ek|]. rewrite Wr. rewrite U by exact Lp. reflexivity. }
      destruct r3; cbn [hbind snd]; exact G.
    - destruct (Nat.ltb_spec la lb); [lia|]. destruct (Nat.ltb_spec lb la); [lia|]. cbn [hbind snd]. left. apply U, Hk.
    - destruct (Nat.ltb_spec la lb); [lia|]. destruct (Nat.ltb_spec lb la); [|lia]. cbn [hbind].
      pose proof (hnew_writes (ocl p) (oxk0 q1) (oloc q1) ((la - lb) :: odims q1) m2 k) as Wr. cbv zeta in Wr.
      destruct (hnew _ _ _ _ _) as [r3 m3]. cbn [snd] in Wr.
      assert (G : cells m3 k = cells m k \/ exists o, (o = p \/ o = q) /\ k = oloc o /\ cells m3 k = fixed m o).
      { destruct Wr as [Wr|[Ek Wr]]; [left; rewrite Wr; apply U, Hk|]. assert (q1 = q) as -> by (apply F2; [reflexivity|lia]).
        right. exists q. split; [auto|]. split; [exact Ek|]. rewrite Wr. rewrite U by exact Lq. reflexivity. }
      destruct r3; cbn [hbind snd]; exact G.
  Qed.
  Lemma knots2_runs p2 q2 m : oloc p2 < top m -> oloc q2 < top m ->
    let x := knots2 p2 q2 m in
    (forall k, k < top m -> cells (snd x) k = cells m k) /\ top m <= top (snd x) /\
    match fst x with
    | Ok (p3, q3) => vknots (deref m p2) (deref m q2) = Ok (deref (snd x) p3, arr (snd x) q3)
    | Err e => vknots (deref m p2) (deref m q2) = Err e
    end.
  Proof.
    intros Lp Lq x. subst x. unfold knots2, vknots. destruct (allknots _ _ _) as [[same xk]|e]; cbn [bind]; [|repeat split; auto].
    destruct same; [repeat split; auto|].
    destruct (haddknots_runs p2 xk m (oloc p2)) as (A1 & B1 & C1). destruct (haddknots p2 xk m) as [[p3|e] m1]; cbn [fst snd hbind] in *; [|rewrite C1; repeat split; auto].
    destruct C1 as (C1 & D1 & E1). rewrite C1. cbn [bind].
    destruct (haddknots_runs q2 xk m1 (oloc q2)) as (A2 & B2 & C2). rewrite <- (deref_keep m m1 q2) by (apply A1; auto).
    destruct (haddknots q2 xk m1) as [[q3|e] m2]; cbn [fst snd hbind] in *; [|rewrite C2; cbn [bind]; repeat split; [|lia]; intros k Hk; rewrite A2, A1 by (auto; lia); reflexivity].
    destruct C2 as (C2 & D2 & E2). rewrite C2. cbn [bind]. split; [intros k Hk; rewrite A2, A1 by (auto; lia); reflexivity|]. split; [lia|].
    rewrite (deref_keep m1 m2 p3) by (apply A2; auto). reflexivity.
  Qed.
  (* The memory changes nothing about the results, and only the arrays of the operands can change: if the first operand is
     periodic and the numbers of dimensions differ, the array of the operand with fewer dimensions may get the columns
     that PerPwPoly puts in. *)
  Theorem C123_values : forall (skip : bool) (comb : carr -> carr -> res carr) (p q : obj) (m : mem),
    oloc p < top m -> oloc q < top m ->
    (oloc p <> oloc q \/ length (csh (arr m p)) = length (csh (arr m q))) ->
    let x := hop skip comb p q m in
    match fst x with
    | Ok r => pop skip comb (deref m p) (deref m q) = Ok (deref (snd x) r)
    | Err e => pop skip comb (deref m p) (deref m q) = Err e
    end /\
    forall k, k < top m -> cells (snd x) k = cells m k \/
      (touched p q skip m k /\ exists o, (o = p \/ o = q) /\ k = oloc o /\ cells (snd x) k = fixed m o).
  Proof.
    intros skip comb p q m Lp Lq HD x. subst x. unfold hop. rewrite hbinary_prep. unfold pop. rewrite binary_prep.
    pose proof (prep_runs p q skip m Lp Lq HD) as (A & B & C). pose proof (prep_writes p q skip m Lp Lq HD) as Wr.
    assert (FR : forall k, k < top m -> cells (snd (prep p q skip m)) k = cells m k \/
      (touched p q skip m k /\ exists o, (o = p \/ o = q) /\ k = oloc o /\ cells (snd (prep p q skip m)) k = fixed m o)).
    { intros k Hk. destruct (Wr k Hk) as [H|H]; [left; exact H|].
      assert (T : touched p q skip m k \/ ~ touched p q skip m k).
      { unfold touched. destruct (ocl p); [right; intros [? _]; discriminate|].
        destruct (Nat.eq_dec k (oloc p)); destruct (Nat.eq_dec k (oloc q)); destruct (lt_dec (length (csh (arr m p))) (length (csh (arr m q))));
          destruct (lt_dec (length (csh (arr m q))) (length (csh (arr m p)))); destruct (le_dec (cn (arr m p)) (cn (arr m q))); destruct (le_dec (cn (arr m q)) (cn (arr m p)));
          destruct skip; intuition (try discriminate; try lia). }
      destruct T as [T|T]; [right; auto|left; apply A; auto]. }
    destruct (prep p q skip m) as [[[p2 q2]|e] m4]; cbn [fst snd hbind] in *; [|rewrite C; cbn [bind]; auto].
    destruct C as (C & D & E). rewrite C. cbn [bind fst snd].
    destruct (knots2_runs p2 q2 m4 D E) as (A2 & B2 & C2).
    destruct (knots2 p2 q2 m4) as [[[p3 q3]|e] m6]; cbn [fst snd hbind] in *.
    - rewrite C2. cbn [bind fst snd]. change (pc (deref m6 p3)) with (arr m6 p3). change (pxk0 (deref m6 p3)) with (oxk0 p3). change (pcl (deref m p)) with (ocl p).
      destruct (comb _ _) as [c|e]; cbn [bind fst snd].
      + destruct (fresh_runs (ocl p) (oxk0 p3) c m6 0) as (A3 & B3 & C3). split.
        * unfold new. destruct (fst _); [apply C3|exact C3].
        * intros k Hk. destruct (FR k Hk) as [H|(T & o & O1 & O2 & H)]; [left|right; split; [exact T|exists o; split; [exact O1|split; [exact O2|]]]]; rewrite A3, A2 by (auto; lia); exact H.
      + split; [reflexivity|]. intros k Hk. destruct (FR k Hk) as [H|(T & o & O1 & O2 & H)]; [left|right; split; [exact T|exists o; split; [exact O1|split; [exact O2|]]]]; rewrite A2 by lia; exact H.
    - rewrite C2. cbn [bind]. split; [reflexivity|].
      intros k Hk. destruct (FR k Hk) as [H|(T & o & O1 & O2 & H)]; [left|right; split; [exact T|exists o; split; [exact O1|split; [exact O2|]]]]; rewrite A2 by lia; exact H.
  Qed.
  (* for the three operators *)
  Definition gives (x : res obj * mem) (v : res (@pwpoly K)) : Prop :=
    match fst x with Ok r => v = Ok (deref (snd x) r) | Err e => v = Err e end.
  Theorem C123_operators : forall (p q : obj) (m : mem),
    oloc p < top m -> oloc q < top m ->
    (oloc p <> oloc q \/ length (csh (arr m p)) = length (csh (arr m q))) ->
    gives (hadd p q m) (padd (deref m p) (deref m q)) /\ gives (hsub p q m) (psub (deref m p) (deref m q)) /\
    gives (hmul p q m) (pmul (deref m p) (deref m q)).
  Proof.
    intros p q m Lp Lq HD. rewrite pop_padd, pop_psub, pop_pmul. unfold gives, hadd, hsub, hmul.
    split; [apply (C123_values false add_comb p q m Lp Lq HD)|]. split; [apply (C123_values false sub_comb p q m Lp Lq HD)|apply (C123_values true mul_comb p q m Lp Lq HD)].
  Qed.
End Values.

Local Open Scope R_scope.
Lemma fixed_agree (m : mem (K := R)) o : pw_wf (deref m o) -> ocl o = Per -> odims o = [] -> agree (fixed m o) (cells m (oloc o)).
Proof.
  intros W C D. destruct (wf_per _ W C) as (P1 & _ & P3). pose proof (ck_eq _ W) as HK. pose proof (wf_len _ W) as HL.
  assert (A : arr m o = cells m (oloc o)) by (unfold arr; rewrite D; reflexivity).
  unfold deref in HL, HK, P1, P3. unfold pxk in HK, P1, P3. cbn [pc pxk0] in HL, HK, P1, P3. rewrite A in HL, HK, P3.
  unfold fixed. rewrite HL, Nat.eqb_refl. split; [reflexivity|]. split; [reflexivity|]. split; [reflexivity|].
  intros comp i Hb Hi. destruct (P3 comp Hb) as [Q0 Q1]. cbn [per_fix ccol].
  destruct (Nat.eqb_spec i (ck (cells m (oloc o)) - 1)) as [->|N].
  - destruct (Nat.eqb_spec (ck (cells m (oloc o)) - 2) 0); [lia|]. numR. symmetry. exact Q1.
  - destruct (Nat.eqb_spec i 0) as [->|]; [symmetry; exact Q0|reflexivity].
Qed.
Lemma agree_call (m m' : mem (K := R)) o : pw_wf (deref m o) -> odims o = [] -> agree (cells m' (oloc o)) (cells m (oloc o)) ->
  forall comp x, inb comp (pshape (deref m o)) -> pw_call (deref m' o) comp x = pw_call (deref m o) comp x.
Proof.
  intros W D (A1 & A2 & A3 & A4) comp x Hb. pose proof (ck_eq _ W) as HK.
  assert (E : forall m0, arr m0 o = cells m0 (oloc o)) by (intros m0; unfold arr; rewrite D; reflexivity).
  unfold pw_call, pw_ok. unfold pshape, deref in *. unfold pxk in HK. cbn [pc pxk0 pcl pper] in *. rewrite !E in *. rewrite A1, A3.
  destruct (_ || _)%bool; [reflexivity|]. destruct (ocl o) eqn:C; [|destruct (oper o)]; cbn [bind]; try reflexivity;
    (f_equal; rewrite !pw_val_base; unfold pw_reduce, base, pxk; cbn [pcl pper pxk0 pc];
     rewrite A4; [reflexivity|exact Hb|]; rewrite HK; apply le_n_S, ssearch_le).
Qed.
(* The operands stay what they are, except in one case: a periodic first operand and a PwPoly with fewer dimensions. *)
Theorem C123_operands_partial : forall (skip : bool) comb (p q : obj (K := R)) (m : mem),
  pw_wf (deref m p) -> pw_wf (deref m q) -> odims p = [] -> odims q = [] -> (oloc p < top m)%nat -> (oloc q < top m)%nat ->
  (oloc p <> oloc q \/ length (pshape (deref m p)) = length (pshape (deref m q))) ->
  (ocl p = Pw \/ ocl q = Per \/ (length (pshape (deref m p)) <= length (pshape (deref m q)))%nat \/
   (skip = false /\ (pdeg (deref m q) < pdeg (deref m p))%nat)) ->
  let m' := snd (hop skip comb p q m) in
  (forall k, (k < top m)%nat -> agree (cells m' k) (cells m k)) /\
  forall o, o = p \/ o = q -> forall comp x, inb comp (pshape (deref m o)) -> pw_call (deref m' o) comp x = pw_call (deref m o) comp x.
Proof.
  intros skip comb p q m Wp Wq Dp Dq Lp Lq HD HC m'.
  assert (G : forall k, (k < top m)%nat -> agree (cells m' k) (cells m k)).
  { intros k Hk. destruct (C123_values skip comb p q m Lp Lq HD) as [_ H]. destruct (H k Hk) as [E|([TP T] & o & O1 & O2 & E)]; fold m' in E.
    - rewrite E. apply agree_refl.
    - rewrite E. rewrite O2. pose proof (cwf_n _ (wf_c _ Wp)) as Np. pose proof (cwf_n _ (wf_c _ Wq)) as Nq. unfold pdeg, pshape, deref in *. cbn [pc] in *. destruct O1 as [-> | ->]; [apply fixed_agree; auto|].
      apply fixed_agree; auto. destruct HC as [HC|[HC|[HC|[HC1 HC2]]]]; [congruence|exact HC| |].
      + exfalso. destruct T as [(T1 & T2 & _)|(_ & T2 & _)]; [|lia]. destruct HD as [HD|HD]; [congruence|lia].
      + exfalso. destruct T as [(T1 & T2 & _)|(_ & T2 & T3)]; [destruct HD as [HD|HD]; [congruence|lia]|]. destruct T3 as [T3|T3]; [congruence|lia]. }
  split; [exact G|]. intros o Ho comp x Hb.
  apply agree_call; auto; destruct Ho as [-> | ->]; auto.
Qed.
(* In that case the second operand is changed: whatever comes of the operation, q has afterwards lost its extrapolation
   and continues its first and last inner pieces. *)
Lemma hnew_per xk l ds (m : mem (K := R)) : length xk = ck (cells m l) -> (2 <= length (tl xk))%nat -> cn (cells m l) <> 0%nat ->
  exists o, hnew Per xk l ds m = (Ok o, write m l (per_fix (tl xk) (cells m l))) /\ oloc o = l.
Proof.
  intros H1 H2 H3. unfold hnew. rewrite H1, Nat.eqb_refl. cbv zeta. destruct (Nat.ltb_spec (length (tl xk)) 2); [lia|].
  destruct (Nat.eqb_spec (cn (cells m l)) 0); [lia|]. eexists. split; reflexivity.
Qed.
Theorem C123_operands_refuted : forall (skip : bool) comb (p q : obj (K := R)) (m : mem),
  pw_wf (deref m p) -> pw_wf (deref m q) -> odims p = [] -> odims q = [] -> (oloc p < top m)%nat -> (oloc q < top m)%nat -> oloc p <> oloc q ->
  ocl p = Per -> ocl q = Pw -> (2 <= length (pxk (deref m q)))%nat -> (length (pshape (deref m q)) < length (pshape (deref m p)))%nat ->
  (skip = true \/ (pdeg (deref m p) <= pdeg (deref m q))%nat) ->
  let m' := snd (hop skip comb p q m) in
  let xk := pxk (deref m q) in
  let n := length xk in
  forall comp, inb comp (pshape (deref m q)) -> forall x,
    (x <= nth 0 xk 0 -> pw_call (deref m' q) comp x = Ok (peval (ccol (pc (deref m q)) comp 1%nat) (x - nth 0 xk 0))) /\
    (nth 0 xk 0 < x <= nth (n - 1) xk 0 -> pw_call (deref m' q) comp x = pw_call (deref m q) comp x) /\
    (nth (n - 1) xk 0 < x -> pw_call (deref m' q) comp x = Ok (peval (ccol (pc (deref m q)) comp (n - 1)%nat) (x - nth (n - 2) xk 0))).
Proof.
  intros skip comb p q m Wp Wq Dp Dq Lp Lq HD Cp Cq H2 HL HC m' xk n.
  assert (E : cells m' (oloc q) = per_fix xk (cells m (oloc q))).
  { unfold m', hop. rewrite hbinary_prep. pose proof (prep_runs p q skip m Lp Lq (or_introl HD)) as (_ & TP & RP).
    assert (Eq : arr m q = cells m (oloc q)) by (unfold arr; rewrite Dq; reflexivity). assert (Ep : arr m p = cells m (oloc p)) by (unfold arr; rewrite Dp; reflexivity).
    pose proof (cwf_n _ (wf_c _ Wp)) as Np. pose proof (cwf_n _ (wf_c _ Wq)) as Nq. pose proof (wf_len _ Wp) as KP. pose proof (wf_len _ Wq) as KQ.
    destruct (wf_per _ Wp Cp) as (NP & _ & _).
    unfold pdeg, pshape in *. unfold pxk in NP, H2, xk. unfold deref in Np, Nq, KP, KQ, NP, H2, HL, HC, xk. cbn [pc pxk0] in Np, Nq, KP, KQ, NP, H2, HL, HC, xk.
    rewrite Ep in Np. rewrite Ep in KP. rewrite Eq in Nq. rewrite Eq in KQ. rewrite Eq, Ep in HL. rewrite Eq, Ep in HC.
    assert (S : cells (snd (prep p q skip m)) (oloc q) = per_fix xk (cells m (oloc q))).
    { unfold prep. cbv zeta. set (nd := Nat.max _ _). set (bp := (negb skip && negb (cn (arr m p) =? nd)%nat)%bool).
      assert (S1 : exists p1 m1, (if bp then hnew_fresh (ocl p) (oxk0 p) (cpad nd (arr m p)) m else (Ok p, m)) = (Ok p1, m1) /\
        (top m <= top m1)%nat /\ (forall k, (k < top m)%nat -> cells m1 k = cells m k) /\ csh (arr m1 p1) = csh (arr m p)).
      { destruct bp; [|exists p, m; repeat split; auto].
        destruct (fresh_runs (ocl p) (oxk0 p) (cpad nd (arr m p)) m 0) as (A1 & B1 & C1).
        destruct (hnew_per (oxk0 p) (top m) [] (alloc m (cpad nd (arr m p)))) as (o & EO & _).
        - cbn [alloc cells]. rewrite Nat.eqb_refl. cbn [cpad ck]. rewrite Ep. exact KP.
        - exact NP.
        - cbn [alloc cells]. rewrite Nat.eqb_refl. cbn [cpad cn]. unfold nd. rewrite Ep. lia.
        - unfold hnew_fresh in *. rewrite Cp in *. rewrite EO in *. cbn [fst snd] in *. destruct C1 as (C1 & _ & _).
          eexists _, _. split; [reflexivity|]. split; [exact B1|]. split; [intros k Hk; apply A1; auto|]. apply rawinit_csh in C1 as (C1 & _). exact C1. }
      destruct S1 as (p1 & m1 & -> & T1 & U1 & V1). cbn [hbind].
      assert (Eq1 : arr m1 q = arr m q) by (apply arr_keep, U1, Lq). rewrite Eq1.
      assert (Bq : (negb skip && negb (cn (arr m q) =? nd)%nat)%bool = false).
      { destruct skip; [reflexivity|]. cbn [negb andb]. apply negb_false_iff, Nat.eqb_eq. unfold nd. rewrite Eq, Ep. destruct HC as [HC|HC]; [discriminate|lia]. }
      rewrite Bq. cbn [hbind]. rewrite V1, Eq1, Eq, Ep. destruct (Nat.ltb_spec (length (csh (cells m (oloc p)))) (length (csh (cells m (oloc q))))); [lia|]. cbn [hbind].
      destruct (Nat.ltb_spec (length (csh (cells m (oloc q)))) (length (csh (cells m (oloc p))))); [|lia]. rewrite Cp.
      destruct (hnew_per (oxk0 q) (oloc q) ((length (csh (cells m (oloc p))) - length (csh (cells m (oloc q))))%nat :: odims q) m1) as (o & -> & _);
        rewrite ?U1 by exact Lq; auto; [lia|]. cbn [hbind snd]. unfold write. cbn [cells]. rewrite Nat.eqb_refl. reflexivity. }
    destruct (prep p q skip m) as [[[p2 q2]|e] m4]; cbn [fst snd hbind] in *; [|exact S].
    destruct RP as (_ & L2 & L3). destruct (knots2_runs p2 q2 m4 L2 L3) as (A2 & B2 & _).
    destruct (knots2 p2 q2 m4) as [[[p3 q3]|e] m6]; cbn [fst snd hbind] in *; [|rewrite A2 by lia; exact S].
    destruct (comb _ _) as [c|e]; cbn [snd]; [|rewrite A2 by lia; exact S].
    destruct (fresh_runs (ocl p) (oxk0 p3) c m6 0) as (A3 & _ & _). rewrite A3, A2 by (auto; lia). exact S. }
  intros comp Hb x.
  assert (Eq : arr m q = cells m (oloc q)) by (unfold arr; rewrite Dq; reflexivity). assert (Eq' : arr m' q = cells m' (oloc q)) by (unfold arr; rewrite Dq; reflexivity).
  pose proof (ck_eq _ Wq) as HK. fold xk in HK. change (pc (deref m q)) with (arr m q) in HK. rewrite Eq in HK. fold n in HK.
  assert (CALL : forall i, in_piece xk i x -> pw_call (deref m' q) comp x = Ok (peval (ccol (per_fix xk (cells m (oloc q))) comp i) (x - nth i (oxk0 q) 0))).
  { intros i Hi. unfold pw_call, pw_ok. unfold deref. cbn [pc pxk0 pcl pper]. rewrite Eq', E, Cq. cbn [per_fix cn ck].
    pose proof (wf_len _ Wq) as KQ. unfold deref in KQ. cbn [pc pxk0] in KQ. rewrite Eq in KQ. rewrite KQ, Nat.eqb_refl.
    pose proof (cwf_n _ (wf_c _ Wq)) as Nq. unfold deref in Nq. cbn [pc] in Nq. rewrite Eq in Nq.
    destruct (Nat.eqb_spec (cn (cells m (oloc q))) 0); [lia|]. destruct (Nat.eqb_spec (ck (cells m (oloc q))) 0); [lia|]. cbn [orb negb bind].
    f_equal. rewrite pw_val_base, pw_reduce_Pw by reflexivity. unfold base, pxk. cbn [pxk0 pc].
    change (tl (oxk0 q)) with xk. rewrite (ssearch_unique xk i x); [reflexivity|apply (wf_inc _ Wq)|exact Hi]. }
  pose proof (wf_inc _ Wq) as INC. fold xk in INC. fold xk in H2. fold n in H2.
  assert (X0 : nth 0 (oxk0 q) 0 = nth 0 xk 0) by apply (wf_first _ Wq). assert (XS : forall j, nth (S j) (oxk0 q) 0 = nth j xk 0) by (intros j; apply (pxk0_S (deref m q) j)).
  change (pc (deref m q)) with (arr m q). rewrite Eq.
  split; [|split].
  - intros Hx. rewrite (CALL 0%nat); [|split; [lia|split; [intros j Hj; lia|intros j Hj; pose proof (incr_le xk 0 j INC ltac:(lia)); lra]]].
    cbn [per_fix ccol]. destruct (Nat.eqb_spec 0 (ck (cells m (oloc q)) - 1)); [lia|]. cbn [Nat.eqb]. rewrite X0. reflexivity.
  - intros Hx. pose proof (ssearch_piece xk x INC) as Hi. set (i := ssearch xk x) in *. rewrite (CALL i Hi).
    assert (I1 : (1 <= i)%nat) by (destruct i; [|lia]; destruct Hi as (_ & _ & Hi); specialize (Hi 0%nat ltac:(fold n; lia)); lra).
    assert (I2 : (i <= n - 1)%nat) by (destruct (le_lt_dec i (n - 1)); [auto|]; destruct Hi as (_ & Hi & _); specialize (Hi (n - 1)%nat ltac:(lia)); lra).
    rewrite pw_call_wf by exact Wq. f_equal. rewrite pw_val_base, pw_reduce_Pw by exact Cq. rewrite (base_piece _ comp i x INC Hi).
    change (pc (deref m q)) with (arr m q). change (pxk0 (deref m q)) with (oxk0 q). rewrite Eq. cbn [per_fix ccol].
    destruct (Nat.eqb_spec i (ck (cells m (oloc q)) - 1)); [lia|]. destruct (Nat.eqb_spec i 0); [lia|]. reflexivity.
  - intros Hx. rewrite (CALL n); [|split; [lia|split; [intros j Hj; pose proof (incr_le xk j (n - 1) INC ltac:(fold n; lia)); lra|intros j Hj; fold n in Hj; lia]]].
    cbn [per_fix ccol]. destruct (Nat.eqb_spec n (ck (cells m (oloc q)) - 1)); [|lia]. destruct (Nat.eqb_spec (ck (cells m (oloc q)) - 2) 0); [lia|].
    replace (ck (cells m (oloc q)) - 2)%nat with (n - 1)%nat by lia. f_equal. fold n. numR.
    rewrite pshift_peval.
    + f_equal. replace n with (S (n - 1)) at 3 by lia. rewrite XS. ring.
    + intros Z. pose proof (cwf_col _ (wf_c _ Wq) comp (n - 1)) as L. unfold deref in L. cbn [pc] in L. rewrite Eq in L.
      pose proof (cwf_n _ (wf_c _ Wq)) as Nq. unfold deref in Nq. cbn [pc] in Nq. rewrite Eq in Nq. rewrite Z in L. cbn in L. unfold pshape, deref in Hb. cbn [pc] in Hb. rewrite Eq in Hb. specialize (L Hb ltac:(lia)). lia.
Qed.
(* a periodic p with one component and the histogram q, 1 on (0, 1] and 0 elsewhere: after p+q the value of q at -1 is 1.
   First over the rationals, where the sum can be computed, then over the reals. *)
Definition hx_mem {K} `{Num K} : mem (K := K) :=
  Mem (fun k => if (k =? 0)%nat then CArr 1 [1%nat] 3 (fun _ _ => [n1]) else CArr 1 [] 3 (fun _ i => if (i =? 1)%nat then [n1] else [n0])) 2.
Definition hx_p {K} `{Num K} : obj (K := K) := Obj Per [n0; n0; n1] 0 [] (Some n1).
Definition hx_q {K} `{Num K} : obj (K := K) := Obj Pw [n0; n0; n1] 1 [] None.
Example C123_case_run : match hadd hx_p hx_q (hx_mem (K := Q)) with
  | (Ok r, m') => (pw_call (deref hx_mem hx_q) [] (-1)%Q, pw_call (deref m' hx_q) [] (-1)%Q, pw_call (deref m' r) [0%nat] (1#2)%Q)
  | (Err e, _) => (Err e, Err e, Err e) end = (Ok 0%Q, Ok 1%Q, Ok 2%Q).
Proof. vm_compute. reflexivity. Qed.
Lemma hx_wf : pw_wf (deref hx_mem (hx_p (K := R))) /\ pw_wf (deref hx_mem (hx_q (K := R))).
Proof.
  split; split; unfold deref, arr, pxk, hx_p, hx_q, hx_mem; cbn [pc pxk0 odims oloc oxk0 ocl oper pcl pper view fold_right cells Nat.eqb cn csh ck ccol tl length nth Nat.sub]; auto.
  - split; [cbn; lia|reflexivity].
  - intros [|i] Hi; cbn in Hi; [cbn; lra|lia].
  - intros _. split; [lia|]. split; [f_equal; numR; ring|]. intros comp _. cbn [ccol ck nth length Nat.sub]. split; [reflexivity|]. unfold pshift, taylor. cbn. f_equal. ring.
  - split; [cbn; lia|]. intros comp [|[|i]] _ _; reflexivity.
  - intros [|i] Hi; cbn in Hi; [cbn; lra|lia].
  - discriminate.
Qed.
Example C123_case : pw_call (deref hx_mem (hx_q (K := R))) [] (-1) = Ok 0 /\
  pw_call (deref (snd (hadd hx_p hx_q hx_mem)) (hx_q (K := R))) [] (-1) = Ok 1.
Proof.
  destruct hx_wf as [Wp Wq]. split.
  - rewrite pw_call_wf, pw_val_base, pw_reduce_Pw by auto. f_equal. rewrite (base_piece _ [] 0%nat).
    + unfold peval. cbn. ring.
    + apply (wf_inc _ Wq).
    + split; [cbn; lia|]. split; [intros j Hj; lia|]. intros [|[|j]] Hj; cbn in *; [lra|lra|lia].
  - destruct (C123_operands_refuted false add_comb hx_p hx_q hx_mem Wp Wq eq_refl eq_refl) with (comp := @nil nat) (x := -1) as (H & _);
      try reflexivity; cbn; try lia; try discriminate; try (right; lia); [constructor|].
    unfold hadd. rewrite H; [|cbn; lra]. f_equal. unfold peval. cbn. ring.
Qed.

(* ---- C124: the arrays given to the constructor ---- *)
Lemma ctor_after_even (xk : list R) (args : list (yarr R)) argz s : incr xk -> (2 <= length xk)%nat -> size s <> 0%nat -> args <> [] ->
  Forall (fun a => ysh a = s /\ yn a = length xk) args -> (yn argz + 1 = length xk)%nat ->
  ctor_after xk (args ++ [argz]) = args ++ [YArr (ysh argz) (yn argz) (fun comp i => yval argz comp i * (1 / (1 * IZR (zprod (length args - 1 + 1) (length args - 1)))))].
Proof.
  intros Hi Hn Hs Hne Ha Hz. unfold ctor_after. rewrite rev_app_distr. cbn [rev app]. rewrite removelast_last. numR. rewrite (incr_not_decr xk Hi).
  destruct (rev args) as [|a r] eqn:ER; [apply (f_equal (@length _)) in ER; rewrite rev_length in ER; destruct args; [congruence|discriminate]|].
  assert (I : In a args) by (apply in_rev; rewrite ER; left; reflexivity). rewrite Forall_forall in Ha. destruct (Ha a I) as [A1 A2].
  rewrite (uniform_Forall args s (length xk)) by (apply Forall_forall; auto). rewrite A1, A2, size_snoc.
  destruct (Nat.eqb_spec (yn argz + 1) (length xk)); [|lia]. destruct (Nat.eqb_spec (size s * length xk) 0); [nia|]. rewrite Nat.eqb_refl.
  destruct (Nat.leb_spec 2 (length xk)); [|lia]. reflexivity.
Qed.
Lemma zprod_ge a n : (1 <= a)%nat -> (1 <= zprod a n)%Z.
Proof. revert a. induction n as [|n IH]; intros a Ha; cbn [zprod]; [lia|]. specialize (IH (S a) ltac:(lia)). nia. Qed.
(* With three or more lists (and an even degree) the last array is divided in place by (h+1)(h+2)...(2h): a second call
   with the same arrays makes a different function. *)
Theorem C124_arguments_refuted : forall inv (xk : list R) (args : list (yarr R)) (argz : yarr R) (s : list nat) (h : nat),
  inv_spec inv -> incr xk -> (2 <= length xk)%nat -> size s <> 0%nat -> length args = S h -> (1 <= h)%nat ->
  (forall a, In a args -> ysh a = s /\ yn a = length xk) -> ysh argz = s -> (yn argz + 1 = length xk)%nat ->
  exists z' p p' D, ctor_after xk (args ++ [argz]) = args ++ [z'] /\ 2 <= D /\
    ctor inv Pw xk (args ++ [argz]) = Ok p /\ ctor inv Pw xk (args ++ [z']) = Ok p' /\
    forall comp i, inb comp s -> (S i < length xk)%nat ->
      yval z' comp i = yval argz comp i / D /\
      nth (2 * h + 2) (ccol (pc p') comp (S i)) 0 = nth (2 * h + 2) (ccol (pc p) comp (S i)) 0 / D /\
      (yval argz comp i <> 0 -> nth (2 * h + 2) (ccol (pc p') comp (S i)) 0 <> nth (2 * h + 2) (ccol (pc p) comp (S i)) 0).
Proof.
  intros inv xk args argz s h Hinv Hi Hn Hs HL Hh Ha Z1 Z2.
  assert (Ne : args <> []) by (destruct args; [discriminate|congruence]). assert (FA : Forall (fun a => ysh a = s /\ yn a = length xk) args) by (apply Forall_forall; auto).
  rewrite (ctor_after_even xk args argz s) by auto. set (z' := YArr _ _ _).
  destruct (ctor_even_ok inv Hinv Pw xk args s argz Hi Hn Hs FA Ne Z1 Z2) as (p & E & _ & _ & _ & _ & _ & _ & _ & T).
  destruct (ctor_even_ok inv Hinv Pw xk args s z' Hi Hn Hs FA Ne Z1 Z2) as (p' & E' & _ & _ & _ & _ & _ & _ & _ & T').
  assert (Eh : (length args - 1)%nat = h) by lia. rewrite Eh in *. set (D := IZR (zprod (h + 1) h)) in *.
  assert (HD : 2 <= D).
  { unfold D. apply IZR_le. destruct h as [|h']; [lia|]. cbn [zprod]. pose proof (zprod_ge (S (S h' + 1)) h' ltac:(lia)). nia. }
  exists z', p, p', D. split; [reflexivity|]. split; [exact HD|]. split; [exact E|]. split; [exact E'|]. intros comp i Hb Hl.
  assert (Y : yval z' comp i = yval argz comp i / D) by (unfold z'; cbn [yval]; rewrite ?Eh; fold D; field; lra).
  split; [exact Y|]. rewrite T, T' by auto. rewrite Y. split; [reflexivity|]. intros Nz X.
  assert (Q : yval argz comp i / D <> 0) by (intros Z; apply Nz; replace (yval argz comp i) with (yval argz comp i / D * D) by (field; lra); rewrite Z; ring).
  assert (yval argz comp i / D = yval argz comp i / D * D) by (transitivity (yval argz comp i / D / D * D); [field; lra|rewrite X; reflexivity]).
  assert (yval argz comp i / D * (D - 1) = 0) by lra. apply Rmult_integral in H0 as [?|?]; [contradiction|lra].
Qed.
(* All other calls leave the arrays as they are. *)
Theorem C124_arguments_partial : forall (xk : list R) (args : list (yarr R)),
  ((forall argz, In argz (skipn (length args - 1) args) -> (yn argz + 1 <> length xk)%nat) -> ctor_after xk args = args) /\
  ((length args <= 2)%nat ->
     Forall2 (fun a b => ysh a = ysh b /\ yn a = yn b /\ forall comp i, yval a comp i = yval b comp i) (ctor_after xk args) args) /\
  ((length xk < 2)%nat \/ nth (length xk - 1) xk 0 < nth 0 xk 0 -> ctor_after xk args = args).
Proof.
  intros xk args.
  assert (RF : forall l : list (yarr R), Forall2 (fun a b => ysh a = ysh b /\ yn a = yn b /\ forall comp i, yval a comp i = yval b comp i) l l)
    by (induction l; constructor; auto).
  split; [|split].
  - intros H. unfold ctor_after. destruct (rev args) as [|z [|a r]] eqn:ER; [reflexivity..|].
    assert (EA : args = rev r ++ [a; z]) by (rewrite <- (rev_involutive args), ER; cbn; rewrite <- app_assoc; reflexivity).
    destruct (Nat.eqb_spec (yn z + 1) (length xk)) as [X|]; [|reflexivity]. exfalso. apply (H z); [|exact X].
    rewrite EA, app_length. cbn [length]. replace (length (rev r) + 2 - 1)%nat with (length (rev r ++ [a])) by (rewrite app_length; cbn; lia).
    replace (rev r ++ [a; z]) with ((rev r ++ [a]) ++ [z]) by (rewrite <- app_assoc; reflexivity). rewrite skipn_app, skipn_all, Nat.sub_diag. left. reflexivity.
  - intros L. destruct args as [|a [|z [|? ?]]]; [apply RF|apply RF| |cbn in L; lia]. unfold ctor_after. cbn [rev app removelast length Nat.sub].
    destruct (_ && _)%bool; [|apply RF]. constructor; [auto|]. constructor; [|constructor]. cbn [ysh yn yval]. split; [reflexivity|]. split; [reflexivity|].
    intros comp i. cbn [zprod]. numR. field.
  - intros H. unfold ctor_after. destruct (rev args) as [|z [|a r]]; [reflexivity..|]. numR.
    destruct H as [H|H]; [destruct (Nat.leb_spec 2 (length xk)); [lia|]; rewrite !andb_false_r; reflexivity|].
    destruct (Nat.leb_spec 2 (length xk)); [|rewrite !andb_false_r; reflexivity]. destruct (Nat.ltb_spec 1 (length xk)); [|lia].
    destruct (Rltb_spec (nth (length xk - 1) xk 0) (nth 0 xk 0)); [|lra]. cbn [andb negb]. rewrite andb_false_r. reflexivity.
Qed.
Example C124_case : exists z' : yarr R, ctor_after [0; 1] [YArr [] 2 (fun _ _ => 0); YArr [] 2 (fun _ _ => 0); YArr [] 1 (fun _ _ => 6)] =
    [YArr [] 2 (fun _ _ => 0); YArr [] 2 (fun _ _ => 0); z'] /\ yval z' [] 0%nat = 3.
Proof.
  eexists. split.
  - apply (ctor_after_even [0; 1] [YArr [] 2 (fun _ _ => 0); YArr [] 2 (fun _ _ => 0)] (YArr [] 1 (fun _ _ => 6)) []); auto; try discriminate.
    intros [|i] Hi; cbn in *; [lra|lia].
  - cbn. lra.
Qed.
Print Assumptions C123_values.
Print Assumptions C123_operators.
Print Assumptions C123_operands_partial.
Print Assumptions C123_operands_refuted.
Print Assumptions C124_arguments_refuted.
Print Assumptions C124_arguments_partial.
