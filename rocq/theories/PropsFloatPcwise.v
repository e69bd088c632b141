(* C132: pcwise for doubles, nan and the infinities included.  npplus/pcwise.py:53-83.
   PcWise.v has the decorator for numbers that are ordered; here searchsorted follows numpy's order of
   the doubles, in which nan comes last. *)
From Coq Require Import String List Arith ZArith Lia Bool Reals Lra.
From Flocq Require Import Core BinarySingleNaN.
From Verif Require Import Num PyBase NdArray NdLemmas PwPoly PwBase PcWise PropsPcWise Float64 PropsFloat FloatErr PropsFloatPw PropsFloatMax.
Import ListNotations.
Local Open Scope res_scope.

(** ** The loop of PropsPcWise.v for any numbers *)
Section Loop.
Context {K : Type} {NK : Num K}.
(* a piece function that works element by element *)
Definition elemwise (f : pcfun K) : Prop := forall l, l <> [] -> fvec f l = mapM (fsc f) l.

Lemma gsel_in ialg i (xs : list K) x : In x (sel ialg i xs) <->
  exists k, (k < length ialg)%nat /\ (k < length xs)%nat /\ nth k ialg 0%nat = i /\ nth k xs n0 = x.
Proof.
  revert xs; induction ialg as [|j ia IH]; intros xs; cbn.
  - split; [tauto|]. intros (k & H & _). lia.
  - destruct xs as [|y xs].
    + split; [intros []|]. intros (k & _ & H & _). cbn in H. lia.
    + destruct (Nat.eqb_spec j i) as [->|Hne].
      * cbn. rewrite IH. split.
        -- intros [<-|(k & H1 & H2 & H3 & H4)]; [exists 0%nat|exists (S k)]; cbn; repeat split; auto; lia.
        -- intros (k & H1 & H2 & H3 & H4). destruct k; [left; auto|right]. exists k. cbn in *. repeat split; auto; lia.
      * rewrite IH. split.
        -- intros (k & H1 & H2 & H3 & H4). exists (S k). cbn. repeat split; auto; lia.
        -- intros (k & H1 & H2 & H3 & H4). destruct k; [cbn in *; congruence|]. exists k. cbn in *. repeat split; auto; lia.
Qed.
Lemma gsel_length ialg i (xs : list K) : length xs = length ialg ->
  length (sel ialg i xs) = length (filter (fun j => (j =? i)%nat) ialg).
Proof.
  revert xs; induction ialg as [|j ia IH]; intros [|x xs] H; cbn in *; try discriminate; auto.
  destruct (j =? i)%nat; cbn; rewrite IH; auto.
Qed.
Lemma gput_length ialg i (vals rs : list K) : length (put ialg i vals rs) = length rs.
Proof.
  revert vals rs; induction ialg as [|j ia IH]; intros vals [|r rs]; cbn; auto.
  destruct (j =? i)%nat; cbn; rewrite IH; auto.
Qed.
Lemma gput_other ialg i (vals rs : list K) k : nth k ialg 0%nat <> i -> (k < length ialg)%nat ->
  nth k (put ialg i vals rs) n0 = nth k rs n0.
Proof.
  revert vals rs k; induction ialg as [|j ia IH]; intros vals rs k H Hk; [cbn in Hk; lia|].
  cbn [put]. destruct rs as [|r rs]; [reflexivity|].
  destruct k as [|k]; cbn in *.
  - destruct (Nat.eqb_spec j i); [congruence|reflexivity].
  - destruct (j =? i)%nat; cbn; apply IH; auto; lia.
Qed.
Lemma gput_here (f : K -> res K) ialg i xs vals rs k :
  mapM f (sel ialg i xs) = Ok vals -> (k < length ialg)%nat -> length xs = length ialg -> length rs = length ialg ->
  nth k ialg 0%nat = i -> f (nth k xs n0) = Ok (nth k (put ialg i vals rs) n0).
Proof.
  revert xs vals rs k; induction ialg as [|j ia IH]; intros [|x xs] vals [|r rs] k E Hk H1 H2 Hi; cbn in *; try lia.
  destruct (Nat.eqb_spec j i) as [->|Hne].
  - cbn in E. destruct (f x) as [v|] eqn:Ef; [|discriminate].
    destruct (mapM f (sel ia i xs)) as [vs|] eqn:Em; [|discriminate]. injection E as <-. cbn.
    destruct k as [|k]; [exact Ef|]. apply IH; auto; lia.
  - destruct k as [|k]; [congruence|]. apply IH; auto; lia.
Qed.

Lemma gmloop_ok ialg xs : forall fs i rs,
  length xs = length ialg -> length rs = length ialg ->
  (forall f, In f fs -> elemwise f) ->
  (forall k p f, (k < length ialg)%nat -> nth_error fs p = Some f -> nth k ialg 0%nat = (i + p)%nat ->
     exists v, fsc f (nth k xs n0) = Ok v) ->
  exists rs', mloop ialg xs i fs rs = Ok rs' /\ length rs' = length ialg /\
    forall k, (k < length ialg)%nat ->
      ((nth k ialg 0 < i)%nat -> nth k rs' n0 = nth k rs n0) /\
      (forall p f, nth_error fs p = Some f -> nth k ialg 0%nat = (i + p)%nat ->
         fsc f (nth k xs n0) = Ok (nth k rs' n0)).
Proof.
  induction fs as [|f fs IH]; intros i rs H1 H2 He Hok.
  - exists rs. cbn. repeat split; auto. intros [|p] f; discriminate.
  - cbn [mloop].
    assert (Step : forall rs1, length rs1 = length ialg ->
       (forall k, (k < length ialg)%nat -> nth k ialg 0%nat <> i -> nth k rs1 n0 = nth k rs n0) ->
       (forall k, (k < length ialg)%nat -> nth k ialg 0%nat = i -> fsc f (nth k xs n0) = Ok (nth k rs1 n0)) ->
       exists rs', mloop ialg xs (S i) fs rs1 = Ok rs' /\ length rs' = length ialg /\
         forall k, (k < length ialg)%nat ->
           ((nth k ialg 0 < i)%nat -> nth k rs' n0 = nth k rs n0) /\
           (forall p g, nth_error (f :: fs) p = Some g -> nth k ialg 0%nat = (i + p)%nat ->
              fsc g (nth k xs n0) = Ok (nth k rs' n0))).
    { intros rs1 L1 O1 V1.
      destruct (IH (S i) rs1 H1 L1) as (rs' & E & L' & G).
      - intros; apply He; right; auto.
      - intros k p g Hk Hp Hi. apply (Hok k (S p) g); auto. lia.
      - exists rs'. split; [exact E|]. split; [exact L'|]. intros k Hk. destruct (G k Hk) as [G1 G2]. split.
        + intros Hlt. rewrite G1 by lia. apply O1; auto. lia.
        + intros [|p] g Hg Hi; cbn in Hg.
          * injection Hg as <-. rewrite G1 by lia. apply V1; auto. lia.
          * apply (G2 p g); auto. lia. }
    destruct (sel ialg i xs) as [|x0 xm] eqn:Es.
    + apply Step; auto. intros k Hk Hi. exfalso.
      assert (I : In (nth k xs n0) (sel ialg i xs)) by (apply gsel_in; exists k; repeat split; auto; lia).
      rewrite Es in I. destruct I.
    + rewrite (He f (or_introl eq_refl)) by discriminate. rewrite <- Es.
      destruct (mapM (fsc f) (sel ialg i xs)) as [vals|e] eqn:Em.
      * cbn [bind]. assert (Lv : length vals = length (sel ialg i xs)) by (apply mapM_length in Em; auto).
        unfold set_mask. rewrite Lv, gsel_length, Nat.eqb_refl by auto. cbn [bind].
        apply Step.
        -- rewrite gput_length; auto.
        -- intros k Hk Hi. apply gput_other; auto.
        -- intros k Hk Hi. eapply gput_here; eauto.
      * exfalso. apply mapM_err_in in Em as (x & Hx & Ex). apply gsel_in in Hx as (k & K1 & K2 & K3 & K4).
        destruct (Hok k 0%nat f K1 eq_refl) as [v Hv]; [lia|]. rewrite K4 in Hv. congruence.
Qed.
Lemma gmloop_err ialg xs : forall fs i rs,
  length xs = length ialg -> length rs = length ialg ->
  (forall f, In f fs -> elemwise f) ->
  (exists k p f e, (k < length ialg)%nat /\ nth_error fs p = Some f /\ nth k ialg 0%nat = (i + p)%nat /\
     fsc f (nth k xs n0) = Err e) ->
  exists k p f e, (k < length ialg)%nat /\ nth_error fs p = Some f /\ nth k ialg 0%nat = (i + p)%nat /\
     fsc f (nth k xs n0) = Err e /\ mloop ialg xs i fs rs = Err e /\
     (forall k' p' f', (p' < p)%nat -> (k' < length ialg)%nat -> nth_error fs p' = Some f' ->
        nth k' ialg 0%nat = (i + p')%nat -> exists v, fsc f' (nth k' xs n0) = Ok v).
Proof.
  induction fs as [|f fs IH]; intros i rs H1 H2 He (k & p & g & e & Hk & Hp & Hi & Hg).
  - destruct p; discriminate.
  - cbn [mloop].
    assert (Step : forall rs1, length rs1 = length ialg ->
       (forall k, (k < length ialg)%nat -> nth k ialg 0%nat = i -> exists v, fsc f (nth k xs n0) = Ok v) ->
       exists k p g e, (k < length ialg)%nat /\ nth_error (f :: fs) p = Some g /\ nth k ialg 0%nat = (i + p)%nat /\
         fsc g (nth k xs n0) = Err e /\ mloop ialg xs (S i) fs rs1 = Err e /\
         (forall k' p' f', (p' < p)%nat -> (k' < length ialg)%nat -> nth_error (f :: fs) p' = Some f' ->
            nth k' ialg 0%nat = (i + p')%nat -> exists v, fsc f' (nth k' xs n0) = Ok v)).
    { intros rs1 L1 V1. destruct p as [|p].
      - cbn in Hp. injection Hp as <-. destruct (V1 k Hk) as [v Hv]; [lia|congruence].
      - destruct (IH (S i) rs1 H1 L1) as (k' & p' & g' & e' & A & B & C & D & E & Mn).
        + intros; apply He; right; auto.
        + exists k, p, g, e. repeat split; auto. lia.
        + exists k', (S p'), g', e'. split; [auto|]. split; [auto|]. split; [lia|]. split; [auto|]. split; [auto|].
          intros k2 [|p2] f2 Hp2 Hk2 Hf2 Hi2.
          * cbn in Hf2. injection Hf2 as <-. apply V1; auto. lia.
          * apply (Mn k2 p2 f2); auto; lia. }
    destruct (sel ialg i xs) as [|x0 xm] eqn:Es.
    + apply Step; auto. intros k' Hk' Hi'. exfalso.
      assert (I : In (nth k' xs n0) (sel ialg i xs)) by (apply gsel_in; exists k'; repeat split; auto; lia).
      rewrite Es in I. destruct I.
    + rewrite (He f (or_introl eq_refl)) by discriminate. rewrite <- Es.
      destruct (mapM (fsc f) (sel ialg i xs)) as [vals|e'] eqn:Em; cbn [bind].
      * assert (Lv : length vals = length (sel ialg i xs)) by (apply mapM_length in Em; auto).
        unfold set_mask. rewrite Lv, gsel_length, Nat.eqb_refl by auto. cbn [bind].
        apply Step.
        -- rewrite gput_length; auto.
        -- intros k' Hk' Hi'. eexists. eapply gput_here; eauto.
      * apply mapM_err_in in Em as (x & Hx & Ex). apply gsel_in in Hx as (k' & K1 & K2 & K3 & K4).
        exists k', 0%nat, f, e'. split; [auto|]. split; [auto|]. split; [lia|]. split; [rewrite K4; auto|]. split; [reflexivity|].
        intros; lia.
Qed.

(* multif, pcwise.py:72-83, with the result of xvals.searchsorted given by srch *)
Definition multif_by (srch : K -> nat) (funcs : list (pcfun K)) (x : nd K) : res (nd K) :=
  match shp x with
  | [] =>
    match nth_error funcs (srch (get x [])) with
    | None => Err IndexError
    | Some f => rmap scalar (fsc f (get x []))
    end
  | s =>
    let xs := flat x in
    let ialg := map srch xs in
    let! rs := mloop ialg xs 0 funcs (repeat n0 (size s)) in
    Ok (Nd s (fun idx => nth (ravel s idx) rs n0))
  end.
Lemma gflat_nth (x : nd K) k : (k < size (shp x))%nat -> nth k (flat x) n0 = get x (unravel (shp x) k).
Proof.
  intros H. unfold flat. set (f := fun k => get x (unravel (shp x) k)).
  rewrite (nth_indep _ n0 (f 0%nat)) by (rewrite map_length, seq_length; auto).
  rewrite map_nth, seq_nth by auto. reflexivity.
Qed.
Lemma gflat_length (x : nd K) : length (flat x) = size (shp x).
Proof. unfold flat. rewrite map_length, seq_length. reflexivity. Qed.
Lemma gmultif_ok srch funcs x :
  (forall t, (srch t < length funcs)%nat) -> (forall f, In f funcs -> elemwise f) ->
  (forall idx, inb idx (shp x) -> exists f v, nth_error funcs (srch (get x idx)) = Some f /\ fsc f (get x idx) = Ok v) ->
  exists r, multif_by srch funcs x = Ok r /\ shp r = shp x /\
    forall idx, inb idx (shp x) -> exists f, nth_error funcs (srch (get x idx)) = Some f /\ fsc f (get x idx) = Ok (get r idx).
Proof.
  intros HL He Hok. unfold multif_by. destruct (shp x) as [|d s] eqn:Es.
  - destruct (Hok [] (Forall2_nil _)) as (f & v & Hf & Hv). rewrite Hf, Hv. cbn [rmap]. eexists. split; [reflexivity|]. split; [reflexivity|].
    intros idx Hi. inv Hi. exists f. auto.
  - rewrite <- Es in *. set (xs := flat x). set (ialg := map srch xs).
    assert (L1 : length xs = size (shp x)) by apply gflat_length.
    assert (L2 : length ialg = size (shp x)) by (unfold ialg; rewrite map_length; auto).
    assert (Nx : forall k, (k < size (shp x))%nat -> nth k ialg 0%nat = srch (nth k xs n0)).
    { intros k Hk. unfold ialg. rewrite (nth_indep _ 0%nat (srch n0)) by (rewrite map_length; lia). apply map_nth. }
    destruct (gmloop_ok ialg xs funcs 0 (repeat n0 (size (shp x)))) as (rs & E & Lr & G); auto.
    + lia.
    + rewrite repeat_length. auto.
    + intros k p f Hk Hp Hi. rewrite L2 in Hk. rewrite Nx in Hi by auto.
      destruct (Hok (unravel (shp x) k)) as (f' & v & Hf & Hv); [apply inb_unravel; auto|].
      rewrite <- gflat_nth in Hf, Hv by auto. fold xs in Hf, Hv. rewrite Hi in Hf. cbn in Hf. exists v. congruence.
    + rewrite E. cbn [bind]. eexists. split; [reflexivity|]. split; [reflexivity|].
      intros idx Hi. cbn [get]. pose proof (ravel_lt _ _ Hi) as Hk. set (k := ravel (shp x) idx) in *.
      assert (Ex : get x idx = nth k xs n0).
      { unfold xs. rewrite gflat_nth by auto. unfold k. rewrite unravel_ravel; auto. }
      destruct (G k) as [_ G2]; [lia|]. rewrite Ex.
      destruct (nth_error funcs (srch (nth k xs n0))) as [f|] eqn:Ef.
      2:{ apply nth_error_None in Ef. pose proof (HL (nth k xs n0)). lia. }
      exists f. split; [reflexivity|]. apply (G2 _ f Ef). rewrite Nx by auto. reflexivity.
Qed.
Lemma gmultif_err srch funcs x idx f e :
  (forall t, (srch t < length funcs)%nat) -> (forall f, In f funcs -> elemwise f) ->
  inb idx (shp x) -> nth_error funcs (srch (get x idx)) = Some f -> fsc f (get x idx) = Err e ->
  exists idx' f' e', inb idx' (shp x) /\ nth_error funcs (srch (get x idx')) = Some f' /\ fsc f' (get x idx') = Err e' /\ (srch (get x idx') <= srch (get x idx))%nat /\
    multif_by srch funcs x = Err e'.
Proof.
  intros HL He Hi Hf Hv. unfold multif_by. destruct (shp x) as [|d s] eqn:Es.
  - inv Hi. exists [], f, e. split; [constructor|]. split; [exact Hf|]. split; [exact Hv|]. split; [lia|]. rewrite Hf, Hv. reflexivity.
  - rewrite <- Es in *. set (xs := flat x). set (ialg := map srch xs).
    assert (L1 : length xs = size (shp x)) by apply gflat_length.
    assert (L2 : length ialg = size (shp x)) by (unfold ialg; rewrite map_length; auto).
    assert (Nx : forall k, (k < size (shp x))%nat -> nth k ialg 0%nat = srch (nth k xs n0)).
    { intros k Hk. unfold ialg. rewrite (nth_indep _ 0%nat (srch n0)) by (rewrite map_length; lia). apply map_nth. }
    pose proof (ravel_lt _ _ Hi) as Hk.
    assert (Ex : get x idx = nth (ravel (shp x) idx) xs n0) by (unfold xs; rewrite gflat_nth by auto; rewrite unravel_ravel; auto).
    destruct (gmloop_err ialg xs funcs 0 (repeat n0 (size (shp x)))) as (k & p & g & e' & A & B & C & D & E & Mn); auto.
    + lia.
    + rewrite repeat_length; auto.
    + exists (ravel (shp x) idx), (srch (get x idx)), f, e. split; [lia|]. split; [exact Hf|]. split; [rewrite Nx by auto; rewrite Ex; reflexivity|]. rewrite <- Ex. exact Hv.
    + rewrite L2 in A. rewrite Nx in C by auto. cbn in C. exists (unravel (shp x) k), g, e'. split; [apply inb_unravel; auto|].
      rewrite <- gflat_nth by auto. fold xs. rewrite C. split; [exact B|]. split; [exact D|]. split; [|rewrite E; reflexivity].
      destruct (Nat.le_gt_cases p (srch (get x idx))) as [|Lt]; [auto|]. exfalso.
      destruct (Mn (ravel (shp x) idx) (srch (get x idx)) f Lt ltac:(lia) Hf) as [v V]; [rewrite Nx by auto; rewrite Ex; reflexivity|]. rewrite <- Ex in V. congruence.
Qed.
End Loop.

(** ** searchsorted of doubles *)
(* numpy's order of the doubles for sort and searchsorted: nan after all others *)
Definition fbefore (a b : f64) : bool := (a <? b)%K || (isnan b && negb (isnan a)).
(* xvals.searchsorted(x), pcwise.py:75: the number of breakpoints before x, for breakpoints in order *)
Fixpoint fsearch (xv : list f64) (x : f64) : nat :=
  match xv with [] => O | a :: r => if fbefore a x then S (fsearch r x) else O end.
Definition fmultif (funcs : list (pcfun f64)) (xv : list f64) : nd f64 -> res (nd f64) := multif_by (fsearch xv) funcs.

(** ** Specification *)
Definition fincr (xv : list f64) : Prop := forall i, (S i < length xv)%nat -> (nth i xv n0 <? nth (S i) xv n0)%K = true.
(* x belongs to piece j: after all breakpoints if it is nan, else xv[j-1] < x <= xv[j] *)
Definition fpiece (xv : list f64) (j : nat) (x : f64) : Prop :=
  if isnan x then j = length xv
  else (j <= length xv)%nat /\ (forall i, (i < j)%nat -> (nth i xv n0 <? x)%K = true) /\ (forall i, (j <= i < length xv)%nat -> (x <=? nth i xv n0)%K = true).
Definition fcall (funcs : list (pcfun f64)) (xv : list f64) (x : f64) (v : res f64) : Prop :=
  exists j f, fpiece xv j x /\ nth_error funcs j = Some f /\ fsc f x = v.
Definition nonan (xv : list f64) : Prop := forall a, In a xv -> isnan a = false.

Lemma fle_not_lt (x y : f64) : isnan x = false -> isnan y = false -> (x <=? y)%K = negb (y <? x)%K.
Proof.
  intros Nx Ny. destruct (is_finite x) eqn:Fx; [destruct (is_finite y) eqn:Fy|].
  - rewrite fle_val, flt_val by auto. destruct (Rleb_spec (val x) (val y)), (Rltb_spec (val y) (val x)); cbn; auto; lra.
  - destruct y as [s|[|]| |s m e b]; try discriminate Fy; try discriminate Ny; destruct x as [s|s| |s m e b]; try discriminate Fx; destruct s; reflexivity.
  - destruct x as [s|[|]| |s m e b]; try discriminate Fx; try discriminate Nx; destruct y as [s|[|]| |[|] m e b]; try discriminate Ny; try reflexivity; destruct s; reflexivity.
Qed.
Lemma fincr_tl a xv : fincr (a :: xv) -> fincr xv.
Proof. intros H i Hi. apply (H (S i)). cbn. lia. Qed.
Lemma flt_le (x y : f64) : isnan x = false -> isnan y = false -> (x <? y)%K = true -> (x <=? y)%K = true.
Proof.
  intros Nx Ny H. destruct (is_finite x) eqn:Fx; [destruct (is_finite y) eqn:Fy|].
  - rewrite flt_val in H by auto. rewrite fle_val by auto. destruct (Rltb_spec (val x) (val y)); [|discriminate]. destruct (Rleb_spec (val x) (val y)); [auto|lra].
  - destruct y as [s|[|]| |s m e b]; try discriminate Fy; try discriminate Ny; destruct x as [s|s| |s m e b]; try discriminate Fx; destruct s; try discriminate H; reflexivity.
  - destruct x as [s|[|]| |s m e b]; try discriminate Fx; try discriminate Nx; destruct y as [s|[|]| |[|] m e b]; try discriminate Ny; try discriminate H; try reflexivity; destruct s; try discriminate H; reflexivity.
Qed.
Lemma fincr_le a xv : nonan (a :: xv) -> fincr (a :: xv) -> forall i, (i < length xv)%nat -> (a <=? nth i xv n0)%K = true.
Proof.
  intros N H i Hi. assert (NA : forall k, (k < length (a :: xv))%nat -> isnan (nth k (a :: xv) n0) = false) by (intros k Hk; apply N, nth_In; exact Hk). cbn [length] in NA.
  induction i as [|i IH].
  - apply flt_le; [apply (NA 0%nat); lia|apply (NA 1%nat); lia|apply (H 0%nat); cbn; lia].
  - apply (fle_trans a (nth i xv n0) (nth (S i) xv n0)); [apply (NA 0%nat); lia|apply (NA (S i)); lia|apply (NA (S (S i))); lia|apply IH; lia|].
    apply flt_le; [apply (NA (S i)); lia|apply (NA (S (S i))); lia|apply (H (S i)); cbn; lia].
Qed.
Lemma fsearch_is xv x : nonan xv -> fincr xv -> fpiece xv (fsearch xv x) x.
Proof.
  intros N H. unfold fpiece. destruct (isnan x) eqn:Nx.
  - induction xv as [|a xv IH]; [reflexivity|]. cbn [fsearch length]. unfold fbefore. rewrite Nx, (N a) by (left; auto). rewrite orb_true_r.
    f_equal. apply IH; [intros b Hb; apply N; right; auto|eapply fincr_tl; eauto].
  - induction xv as [|a xv IH]; cbn [fsearch].
    + split; [cbn; lia|]. split; intros; cbn in *; lia.
    + assert (Na : isnan a = false) by (apply N; left; auto). unfold fbefore. rewrite Nx. cbn [andb]. rewrite orb_false_r. destruct (nltb a x) eqn:L.
      * destruct (IH ltac:(intros b Hb; apply N; right; auto) ltac:(eapply fincr_tl; eauto)) as (A & B & C). split; [cbn; lia|]. split.
        -- intros [|i] Hi; cbn [nth]; auto. apply B; lia.
        -- intros [|i] Hi; cbn [nth length] in *; [lia|]. apply C; lia.
      * assert (LE : (x <=? a)%K = true) by (rewrite fle_not_lt by auto; rewrite L; reflexivity).
        split; [lia|]. split; [intros; lia|]. intros [|i] Hi; cbn [nth length] in *; [exact LE|].
        apply (fle_trans x a); auto. { apply N. right. apply nth_In. lia. } apply fincr_le; auto. lia.
Qed.
Lemma fpiece_unique xv j j' x : nonan xv -> fpiece xv j x -> fpiece xv j' x -> j = j'.
Proof.
  intros N. unfold fpiece. destruct (isnan x) eqn:Nx; [congruence|]. intros (A & B & C) (A' & B' & C').
  destruct (Nat.lt_trichotomy j j') as [H|[H|H]]; auto; exfalso.
  - specialize (B' j H). specialize (C j ltac:(lia)). rewrite fle_not_lt in C by (auto; apply N, nth_In; lia). rewrite B' in C. discriminate.
  - specialize (B j' H). specialize (C' j' ltac:(lia)). rewrite fle_not_lt in C' by (auto; apply N, nth_In; lia). rewrite B in C'. discriminate.
Qed.
Lemma fsearch_le xv x : (fsearch xv x <= length xv)%nat.
Proof. induction xv as [|a xv IH]; cbn; [lia|]. destruct (fbefore a x); lia. Qed.

(** ** C132 *)
Theorem C132_pcwise funcs xv x :
  length funcs = S (length xv) -> nonan xv -> fincr xv -> (forall f, In f funcs -> elemwise f) ->
  (* every double, nan and infinities included, is in exactly one piece *)
  (forall t, exists j, fpiece xv j t /\ (j < length funcs)%nat /\ forall j', fpiece xv j' t -> j' = j) /\
  (* if no scalar call raises, the array result holds the scalar results in place *)
  ((forall idx, inb idx (shp x) -> exists v, fcall funcs xv (get x idx) (Ok v)) ->
   exists r, fmultif funcs xv x = Ok r /\ shp r = shp x /\ forall idx, inb idx (shp x) -> fcall funcs xv (get x idx) (Ok (get r idx))) /\
  (* if one does, the array call raises, and what the call of some entry raises *)
  ((exists idx e, inb idx (shp x) /\ fcall funcs xv (get x idx) (Err e)) ->
   exists idx e, inb idx (shp x) /\ fcall funcs xv (get x idx) (Err e) /\ fmultif funcs xv x = Err e).
Proof.
  intros HL N Hx He. assert (B : forall t, (fsearch xv t < length funcs)%nat) by (intros t; rewrite HL; pose proof (fsearch_le xv t); lia). split; [|split].
  - intros t. exists (fsearch xv t). pose proof (fsearch_is xv t N Hx) as P. split; [exact P|]. split; [auto|]. intros j' Hj. eapply fpiece_unique; eauto.
  - intros Hok. destruct (gmultif_ok (fsearch xv) funcs x B He) as (r & E & S & G).
    + intros idx Hi. destruct (Hok idx Hi) as (v & j & f & P & Hf & Hv). rewrite (fpiece_unique _ _ _ _ N (fsearch_is xv _ N Hx) P). eauto.
    + exists r. split; [exact E|]. split; [exact S|]. intros idx Hi. destruct (G idx Hi) as (f & Hf & Hv). exists (fsearch xv (get x idx)), f. auto using fsearch_is.
  - intros (idx & e & Hi & j & f & P & Hf & Hv). rewrite <- (fpiece_unique _ _ _ _ N (fsearch_is xv _ N Hx) P) in Hf.
    destruct (gmultif_err (fsearch xv) funcs x idx f e B He Hi Hf Hv) as (idx' & f' & e' & Hi' & Hf' & Hv' & _ & E). exists idx', e'. split; [exact Hi'|]. split; [|exact E].
    exists (fsearch xv (get x idx')), f'. auto using fsearch_is.
Qed.
Print Assumptions C132_pcwise.
(* nan is given to the last function, so a string there raises for nan and only for it and for large points *)
Theorem C132_nan funcs xv f (t : f64) : length funcs = S (length xv) -> nonan xv -> fincr xv -> nth_error funcs (length xv) = Some f -> isnan t = true ->
  fmultif funcs xv (scalar t) = rmap scalar (fsc f t).
Proof.
  intros HL N Hx Hf Ht. unfold fmultif, multif_by. cbn [scalar shp get]. pose proof (fsearch_is xv t N Hx) as P. unfold fpiece in P. rewrite Ht in P. rewrite P, Hf. reflexivity.
Qed.
Print Assumptions C132_nan.
(* -inf is in the first piece and, if no breakpoint is inf, inf in the last *)
Theorem C132_infinities xv : nonan xv -> fpiece xv 0 (B754_infinity true) /\ ((forall a, In a xv -> a <> B754_infinity false) -> fpiece xv (length xv) (B754_infinity false)).
Proof.
  intros N. unfold fpiece. cbn [isnan is_nan]. split.
  - split; [lia|]. split; [intros; lia|]. intros i Hi. assert (Na : isnan (nth i xv n0) = false) by (apply N, nth_In; lia). apply fle_cases; auto.
  - intros NI. split; [lia|]. split; [|intros; lia]. intros i Hi. assert (I : In (nth i xv n0) xv) by (apply nth_In; lia). pose proof (N _ I) as Na. pose proof (NI _ I) as Ni.
    destruct (nth i xv n0) as [s|[|]| |s m e b]; try discriminate Na; try congruence; try reflexivity; destruct s; reflexivity.
Qed.
Print Assumptions C132_infinities.

Lemma fsign_val (x : f64) : fin x -> if Bsign x then (val x <= 0)%R else (0 <= val x)%R.
Proof.
  intros F. destruct x as [s|s| |s m e b]; try discriminate F; cbn [Bsign].
  - destruct s; unfold val; cbn [B2R]; lra.
  - destruct s; unfold val; cbn [B2R]; [apply F2R_le_0; cbn; lia|apply F2R_ge_0; cbn; lia].
Qed.
(* differences of doubles have the sign of the exact ones *)
Lemma fsub_sign (a b : f64) : fin a -> fin b -> (nsub b a <=? n0)%K = true <-> (val b <= val a)%R.
Proof.
  intros Fa Fb. pose proof (Bminus_correct 53 1024 _ _ mode_NE b a Fb Fa) as C. fold (val b) (val a) in C.
  change (Flocq.Core.Generic_fmt.round Zaux.radix2 (SpecFloat.fexp 53 1024) (round_mode mode_NE) (val b - val a)) with (rnd (val b - val a)) in C.
  destruct (Raux.Rlt_bool (Rabs (rnd (val b - val a))) (bpow radix2 1024)) eqn:O.
  - destruct C as (V & F & _). assert (F0 : fin (n0 : f64)) by reflexivity. change (nsub b a) with (Bminus mode_NE b a). rewrite fle_val by auto. unfold val at 1. rewrite V.
    change (val (n0 : f64)) with 0%R. destruct (rnd_plus_err b (nopp a)) as (e & He & E). rewrite val_opp in E. replace (val b + - val a)%R with (val b - val a)%R in E by ring. rewrite E.
    pose proof uro_lt as U. apply Rabs_le_inv in He. assert (P : (0 < 1 + e)%R) by lra.
    destruct (Rleb_spec ((val b - val a) * (1 + e)) 0) as [L|L]; split; intros X; auto; try discriminate.
    + destruct (Rle_lt_dec (val b) (val a)) as [|G]; auto. exfalso. assert (0 < (val b - val a) * (1 + e))%R by (apply Rmult_lt_0_compat; lra). lra.
    + exfalso. assert (0 <= (val a - val b) * (1 + e))%R by (apply Rmult_le_pos; lra). lra.
  - destruct C as [V S]. change (nsub b a) with (Bminus mode_NE b a). set (w := Bminus mode_NE b a) in *.
    assert (W : w = B754_infinity (Bsign b)).
    { destruct w as [s|s| |s m e B]; cbn [B2SF] in V; unfold binary_overflow in V; cbn in V; try discriminate V. injection V as ->. reflexivity. }
    rewrite W. pose proof (fsign_val a Fa) as Sa. pose proof (fsign_val b Fb) as Sb. rewrite S in *. destruct (Bsign a); cbn [negb] in *.
    + split; [discriminate|]. intros X. exfalso. replace (val b - val a)%R with 0%R in O by lra. rewrite rnd_0, Rabs_R0 in O.
      rewrite Raux.Rlt_bool_true in O by apply bpow_gt_0. discriminate.
    + split; [intros _; lra|reflexivity].
Qed.
Lemma fbad_diff xv : Forall fin xv -> bad_diff xv = false <-> fincr xv.
Proof.
  unfold bad_diff, fincr. destruct xv as [|a xv]; cbn [tl].
  - intros _. split; [cbn; intros; lia|reflexivity].
  - revert a. induction xv as [|b xv IH]; intros a F.
    + split; [cbn [length]; intros _ i Hi; lia|reflexivity].
    + inv F. match goal with H : Forall fin (b :: xv) |- _ => pose proof H as F; inv H end. cbn [zipw existsb]. rewrite orb_false_iff, IH by auto.
      assert (E : (nsub b a <=? n0)%K = false <-> (a <? b)%K = true).
      { rewrite flt_val by auto. pose proof (fsub_sign a b ltac:(auto) ltac:(auto)) as Sg. destruct (Rltb_spec (val a) (val b)) as [L|L]; destruct (nsub b a <=? n0)%K; split; intros X; auto; try discriminate; exfalso.
        - apply (Rlt_not_le _ _ L). apply Sg. reflexivity.
        - assert (Y : false = true) by (apply Sg; lra). discriminate. }
      rewrite E. split.
      * intros [H1' H2'] [|i] Hi; cbn [nth]; auto. apply (H2' i). cbn [length] in *. lia.
      * intros H. split; [apply (H 0%nat); cbn [length]; lia|]. intros i Hi. apply (H (S i)). cbn [length] in *. lia.
Qed.
(* with finite breakpoints the decorator accepts exactly the increasing ones: small differences do not
   underflow and large ones overflow to the right side *)
Theorem C132_decorate_partial (t : list (item f64)) xv : odds t = map INum xv -> Forall fin xv -> length (evens t) = S (length xv) ->
  (fincr xv -> decorate t = Ok (map piece_of (evens t), xv)) /\ (~ fincr xv -> decorate t = Err TypeError).
Proof.
  intros E F L. unfold decorate. rewrite E.
  assert (M : mapM as_num (map INum xv) = Ok xv) by (clear; induction xv as [|a xv IH]; cbn [map mapM as_num bind]; [auto|rewrite IH; auto]).
  rewrite M. cbn [bind]. rewrite L. replace (S (length xv) =? length xv + 1)%nat with true by (symmetry; apply Nat.eqb_eq; lia). cbn [negb]. split.
  - intros H. rewrite (proj2 (fbad_diff xv F) H). rewrite andb_false_r. reflexivity.
  - intros H. destruct (bad_diff xv) eqn:B; [|exfalso; apply H, fbad_diff; auto]. destruct (Nat.ltb_spec 1 (length xv)); [reflexivity|]. exfalso. apply H. intros i Hi. lia.
Qed.
Print Assumptions C132_decorate_partial.
(* A nan between decreasing breakpoints, or two infinite ones, pass the check for increasing breakpoints. *)
Definition fconst (c : f64) : pcfun f64 := PcFun (fun _ => Ok c) (fun l => mapM (fun _ => Ok c) l).
Theorem C132_decorate_refuted : let f := IFun (fconst n0) in
  (exists xv, decorate [f; INum n1; f; INum B754_nan; f; INum n0; f] = Ok (map piece_of [f; f; f; f], xv) /\ xv = [n1; B754_nan; n0] /\ (nth 2 xv n0 <? nth 0 xv n0)%K = true) /\
  (exists xv, decorate [f; INum (B754_infinity false); f; INum (B754_infinity false); f] = Ok (map piece_of [f; f; f], xv) /\ ~ fincr xv).
Proof.
  intros f. split; eexists.
  - split; [reflexivity|]. split; reflexivity.
  - split; [reflexivity|]. intros H. specialize (H 0%nat ltac:(cbn; lia)). discriminate H.
Qed.
Print Assumptions C132_decorate_refuted.
(* breakpoints 0 and 1: nan, -inf, inf and 1 *)
Example C132_case : let funcs := [fconst (nofZ 5); fconst (nofZ 6); fconst (nofZ 7)] in let xv := [n0; n1] in
  (forall f, In f funcs -> elemwise f) /\ nonan xv /\ fincr xv /\
  map (fsearch xv) [B754_nan; B754_infinity true; B754_infinity false; n1; B754_zero true] = [2; 0; 2; 1; 0]%nat /\
  fmultif funcs xv (scalar B754_nan) = Ok (scalar (nofZ 7)).
Proof.
  intros funcs xv. split; [intros f [<-|[<-|[<-|[]]]] l _; reflexivity|]. split; [intros a [<-|[<-|[]]]; reflexivity|].
  split; [intros [|i] Hi; [reflexivity|cbn in Hi; lia]|]. split; reflexivity.
Qed.
