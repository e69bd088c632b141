(* Properties C15-C17: pcwise. *)
From Coq Require Import String List Arith ZArith Lia Bool Reals Lra.
From Verif Require Import Num PyBase NdArray NdLemmas PwPoly SpecPoly PwBase PcWise.
Import ListNotations.
Local Open Scope R_scope.

(* a piece function that works element by element *)
Definition elementwise (f : pcfun R) : Prop := forall l, l <> [] -> fvec f l = mapM (fsc f) l.

Lemma mapM_err_in {A B} (f : A -> res B) l e : mapM f l = Err e -> exists x, In x l /\ f x = Err e.
Proof.
  induction l as [|a l IH]; cbn; [discriminate|]. destruct (f a) eqn:E.
  - destruct (mapM f l); [discriminate|]. intros [= <-]. destruct IH as (x & Hx & Ex); auto. exists x; auto.
  - intros [= <-]. exists a; auto.
Qed.
Lemma mapM_some_err {A B} (f : A -> res B) l x e : In x l -> f x = Err e -> exists e', mapM f l = Err e'.
Proof.
  induction l as [|a l IH]; cbn; [tauto|]. intros [->|H] E.
  - rewrite E. eauto.
  - destruct (f a); [|eauto]. destruct IH as [e' ->]; eauto.
Qed.
Lemma sel_in ialg i (xs : list R) x : In x (sel ialg i xs) <->
  exists k, (k < length ialg)%nat /\ (k < length xs)%nat /\ nth k ialg 0%nat = i /\ nth k xs 0 = x.
Proof.
  revert xs; induction ialg as [|j ia IH]; intros xs; cbn.
  - split; [tauto|]. intros (k & H & _). lia.
  - destruct xs as [|y xs].
    + split; [intros []|]. intros (k & _ & H & _). cbn in H. lia.
    + destruct (Nat.eqb_spec j i) as [->|Hne].
      * cbn. rewrite IH. split.
        -- intros [<-|(k & H1 & H2 & H3 & H4)]; [exists 0%nat|exists (S k)]; cbn; repeat split; auto; lia.
        -- intros (k & H1 & H2 & H3 & H4). destruct k; [left; auto|right]. exists k. cbn in *. repeat split; auto; lia.
      * rewrite IH. split.
        -- intros (k & H1 & H2 & H3 & H4). exists (S k). cbn. repeat split; auto; lia.
        -- intros (k & H1 & H2 & H3 & H4). destruct k; [cbn in *; congruence|]. exists k. cbn in *. repeat split; auto; lia.
Qed.
Lemma sel_length ialg i (xs : list R) : length xs = length ialg ->
  length (sel ialg i xs) = length (filter (fun j => (j =? i)%nat) ialg).
Proof.
  revert xs; induction ialg as [|j ia IH]; intros [|x xs] H; cbn in *; try discriminate; auto.
  destruct (j =? i)%nat; cbn; rewrite IH; auto.
Qed.
Lemma put_length ialg i (vals rs : list R) : length (put ialg i vals rs) = length rs.
Proof.
  revert vals rs; induction ialg as [|j ia IH]; intros vals [|r rs]; cbn; auto.
  destruct (j =? i)%nat; cbn; rewrite IH; auto.
Qed.
Lemma put_other ialg i (vals rs : list R) k : nth k ialg 0%nat <> i -> (k < length ialg)%nat ->
  nth k (put ialg i vals rs) 0 = nth k rs 0.
Proof.
  revert vals rs k; induction ialg as [|j ia IH]; intros vals rs k H Hk; [cbn in Hk; lia|].
  cbn [put]. destruct rs as [|r rs]; [reflexivity|].
  destruct k as [|k]; cbn in *.
  - destruct (Nat.eqb_spec j i); [congruence|reflexivity].
  - destruct (j =? i)%nat; cbn; apply IH; auto; lia.
Qed.
Lemma put_here (f : R -> res R) ialg i xs vals rs k :
  mapM f (sel ialg i xs) = Ok vals -> (k < length ialg)%nat -> length xs = length ialg -> length rs = length ialg ->
  nth k ialg 0%nat = i -> f (nth k xs 0) = Ok (nth k (put ialg i vals rs) 0).
Proof.
  revert xs vals rs k; induction ialg as [|j ia IH]; intros [|x xs] vals [|r rs] k E Hk H1 H2 Hi; cbn in *; try lia.
  destruct (Nat.eqb_spec j i) as [->|Hne].
  - cbn in E. destruct (f x) as [v|] eqn:Ef; [|discriminate].
    destruct (mapM f (sel ia i xs)) as [vs|] eqn:Em; [|discriminate]. injection E as <-. cbn.
    destruct k as [|k]; [exact Ef|]. apply IH; auto; lia.
  - destruct k as [|k]; [congruence|]. apply IH; auto; lia.
Qed.

Lemma mloop_ok ialg xs : forall fs i rs,
  length xs = length ialg -> length rs = length ialg ->
  (forall f, In f fs -> elementwise f) ->
  (forall k p f, (k < length ialg)%nat -> nth_error fs p = Some f -> nth k ialg 0%nat = (i + p)%nat ->
     exists v, fsc f (nth k xs 0) = Ok v) ->
  exists rs', mloop ialg xs i fs rs = Ok rs' /\ length rs' = length ialg /\
    forall k, (k < length ialg)%nat ->
      ((nth k ialg 0 < i)%nat -> nth k rs' 0 = nth k rs 0) /\
      (forall p f, nth_error fs p = Some f -> nth k ialg 0%nat = (i + p)%nat ->
         fsc f (nth k xs 0) = Ok (nth k rs' 0)).
Proof.
  induction fs as [|f fs IH]; intros i rs H1 H2 He Hok.
  - exists rs. cbn. repeat split; auto. intros [|p] f; discriminate.
  - cbn [mloop].
    assert (Step : forall rs1, length rs1 = length ialg ->
       (forall k, (k < length ialg)%nat -> nth k ialg 0%nat <> i -> nth k rs1 0 = nth k rs 0) ->
       (forall k, (k < length ialg)%nat -> nth k ialg 0%nat = i -> fsc f (nth k xs 0) = Ok (nth k rs1 0)) ->
       exists rs', mloop ialg xs (S i) fs rs1 = Ok rs' /\ length rs' = length ialg /\
         forall k, (k < length ialg)%nat ->
           ((nth k ialg 0 < i)%nat -> nth k rs' 0 = nth k rs 0) /\
           (forall p g, nth_error (f :: fs) p = Some g -> nth k ialg 0%nat = (i + p)%nat ->
              fsc g (nth k xs 0) = Ok (nth k rs' 0))).
    { intros rs1 L1 O1 V1.
      destruct (IH (S i) rs1 H1 L1) as (rs' & E & L' & G).
      - intros; apply He; right; auto.
      - intros k p g Hk Hp Hi. apply (Hok k (S p) g); auto. lia.
      - exists rs'. split; [exact E|]. split; [exact L'|]. intros k Hk. destruct (G k Hk) as [G1 G2]. split.
        + intros Hlt. rewrite G1 by lia. apply O1; auto. lia.
        + intros [|p] g Hg Hi; cbn in Hg.
          * injection Hg as <-. rewrite G1 by lia. apply V1; auto. lia.
          * apply (G2 p g); auto. lia. }
    destruct (sel ialg i xs) as [|x0 xm] eqn:Es.
    + apply Step; auto. intros k Hk Hi. exfalso.
      assert (I : In (nth k xs 0) (sel ialg i xs)) by (apply sel_in; exists k; repeat split; auto; lia).
      rewrite Es in I. destruct I.
    + rewrite (He f (or_introl eq_refl)) by discriminate. rewrite <- Es.
      destruct (mapM (fsc f) (sel ialg i xs)) as [vals|e] eqn:Em.
      * cbn [bind]. assert (Lv : length vals = length (sel ialg i xs)) by (apply mapM_length in Em; auto).
        unfold set_mask. rewrite Lv, sel_length, Nat.eqb_refl by auto. cbn [bind].
        apply Step.
        -- rewrite put_length; auto.
        -- intros k Hk Hi. apply put_other; auto.
        -- intros k Hk Hi. eapply put_here; eauto.
      * exfalso. apply mapM_err_in in Em as (x & Hx & Ex). apply sel_in in Hx as (k & K1 & K2 & K3 & K4).
        destruct (Hok k 0%nat f K1 eq_refl) as [v Hv]; [lia|]. rewrite K4 in Hv. congruence.
Qed.
Lemma mloop_err ialg xs : forall fs i rs,
  length xs = length ialg -> length rs = length ialg ->
  (forall f, In f fs -> elementwise f) ->
  (exists k p f e, (k < length ialg)%nat /\ nth_error fs p = Some f /\ nth k ialg 0%nat = (i + p)%nat /\
     fsc f (nth k xs 0) = Err e) ->
  exists k p f e, (k < length ialg)%nat /\ nth_error fs p = Some f /\ nth k ialg 0%nat = (i + p)%nat /\
     fsc f (nth k xs 0) = Err e /\ mloop ialg xs i fs rs = Err e /\
     (forall k' p' f', (p' < p)%nat -> (k' < length ialg)%nat -> nth_error fs p' = Some f' ->
        nth k' ialg 0%nat = (i + p')%nat -> exists v, fsc f' (nth k' xs 0) = Ok v).
Proof.
  induction fs as [|f fs IH]; intros i rs H1 H2 He (k & p & g & e & Hk & Hp & Hi & Hg).
  - destruct p; discriminate.
  - cbn [mloop].
    assert (Step : forall rs1, length rs1 = length ialg ->
       (forall k, (k < length ialg)%nat -> nth k ialg 0%nat = i -> exists v, fsc f (nth k xs 0) = Ok v) ->
       exists k p g e, (k < length ialg)%nat /\ nth_error (f :: fs) p = Some g /\ nth k ialg 0%nat = (i + p)%nat /\
         fsc g (nth k xs 0) = Err e /\ mloop ialg xs (S i) fs rs1 = Err e /\
         (forall k' p' f', (p' < p)%nat -> (k' < length ialg)%nat -> nth_error (f :: fs) p' = Some f' ->
            nth k' ialg 0%nat = (i + p')%nat -> exists v, fsc f' (nth k' xs 0) = Ok v)).
    { intros rs1 L1 V1. destruct p as [|p].
      - cbn in Hp. injection Hp as <-. destruct (V1 k Hk) as [v Hv]; [lia|congruence].
      - destruct (IH (S i) rs1 H1 L1) as (k' & p' & g' & e' & A & B & C & D & E & Mn).
        + intros; apply He; right; auto.
        + exists k, p, g, e. repeat split; auto. lia.
        + exists k', (S p'), g', e'. split; [auto|]. split; [auto|]. split; [lia|]. split; [auto|]. split; [auto|].
          intros k2 [|p2] f2 Hp2 Hk2 Hf2 Hi2.
          * cbn in Hf2. injection Hf2 as <-. apply V1; auto. lia.
          * apply (Mn k2 p2 f2); auto; lia. }
    destruct (sel ialg i xs) as [|x0 xm] eqn:Es.
    + apply Step; auto. intros k' Hk' Hi'. exfalso.
      assert (I : In (nth k' xs 0) (sel ialg i xs)) by (apply sel_in; exists k'; repeat split; auto; lia).
      rewrite Es in I. destruct I.
    + rewrite (He f (or_introl eq_refl)) by discriminate. rewrite <- Es.
      destruct (mapM (fsc f) (sel ialg i xs)) as [vals|e'] eqn:Em; cbn [bind].
      * assert (Lv : length vals = length (sel ialg i xs)) by (apply mapM_length in Em; auto).
        unfold set_mask. rewrite Lv, sel_length, Nat.eqb_refl by auto. cbn [bind].
        apply Step.
        -- rewrite put_length; auto.
        -- intros k' Hk' Hi'. eexists. eapply put_here; eauto.
      * apply mapM_err_in in Em as (x & Hx & Ex). apply sel_in in Hx as (k' & K1 & K2 & K3 & K4).
        exists k', 0%nat, f, e'. split; [auto|]. split; [auto|]. split; [lia|]. split; [rewrite K4; auto|]. split; [reflexivity|].
        intros; lia.
Qed.

(* --- specification ------------------------------------------------------------ *)
(* x belongs to piece j of the breakpoints xv as the code has it: xv[j-1] < x <= xv[j] *)
Definition piece_is (xv : list R) (j : nat) (x : R) : Prop :=
  (j <= length xv)%nat /\
  (forall i, (i < j)%nat -> nth i xv 0 < x) /\ (forall i, (j <= i < length xv)%nat -> x <= nth i xv 0).
Definition increasing (xv : list R) : Prop :=
  forall i, (S i < length xv)%nat -> nth i xv 0 < nth (S i) xv 0.
Lemma increasing_incr xv : increasing xv -> incr xv.
Proof. intros H. exact H. Qed.
Lemma ssearch_is xv x : incr xv -> piece_is xv (ssearch xv x) x.
Proof.
  intros H. induction xv as [|a xv IH]; cbn [ssearch].
  - split; [cbn; lia|]. split; intros; cbn in *; lia.
  - assert (H' : incr xv). { eapply incr_tl; eauto. }
    numR. destruct (Rltb_spec a x) as [Ha|Ha].
    + destruct (IH H') as (A & B & C). split; [cbn; lia|]. split.
      * intros [|i] Hi; cbn; auto. apply B; lia.
      * intros [|i] Hi; cbn in *; [lia|]. apply C; lia.
    + split; [lia|]. split; [intros; lia|]. intros [|i] Hi; cbn in *; [lra|].
      assert (a < nth i xv 0). { apply (incr_lt (a :: xv) 0 (S i)); auto; cbn; lia. } lra.
Qed.
Lemma piece_is_unique xv j j' x : piece_is xv j x -> piece_is xv j' x -> j = j'.
Proof.
  intros (A & B & C) (A' & B' & C'). destruct (Nat.lt_trichotomy j j') as [H|[H|H]]; auto.
  - specialize (B' j H). specialize (C j ltac:(lia)). lra.
  - specialize (B j' H). specialize (C' j' ltac:(lia)). lra.
Qed.
(* the scalar call at x *)
Definition call_at (funcs : list (pcfun R)) (xv : list R) (x : R) (v : res R) : Prop :=
  exists j f, piece_is xv j x /\ nth_error funcs j = Some f /\ fsc f x = v.

(* the points of x in pieces below that of t raise nothing *)
Definition lowest (funcs : list (pcfun R)) (xv : list R) (x : nd R) (t : R) : Prop :=
  forall idx j j', inb idx (shp x) -> piece_is xv j t -> piece_is xv j' (get x idx) -> (j' < j)%nat ->
  exists v, call_at funcs xv (get x idx) (Ok v).

Lemma flat_nth (x : nd R) k : (k < size (shp x))%nat -> nth k (flat x) 0 = get x (unravel (shp x) k).
Proof.
  intros H. unfold flat. set (f := fun k => get x (unravel (shp x) k)).
  rewrite (nth_indep _ 0 (f 0%nat)) by (rewrite map_length, seq_length; auto).
  rewrite map_nth, seq_nth by auto. reflexivity.
Qed.
Lemma flat_length (x : nd R) : length (flat x) = size (shp x).
Proof. unfold flat. rewrite map_length, seq_length. reflexivity. Qed.

Lemma nth_map_ssearch xv xs k : (k < length xs)%nat -> nth k (map (ssearch xv) xs) 0%nat = ssearch xv (nth k xs 0).
Proof.
  intros H. rewrite (nth_indep _ 0%nat (ssearch xv 0)) by (rewrite map_length; auto). apply map_nth.
Qed.

(* C15 *)
Theorem C15_pcwise funcs xv x :
  length funcs = S (length xv) -> increasing xv -> (forall f, In f funcs -> elementwise f) ->
  (* every point is in exactly one piece *)
  (forall t, exists j, piece_is xv j t /\ (j < length funcs)%nat /\ forall j', piece_is xv j' t -> j' = j) /\
  (* if no scalar call raises, the array result holds the scalar results in place *)
  ((forall idx, inb idx (shp x) -> exists v, call_at funcs xv (get x idx) (Ok v)) ->
   exists r, multif funcs xv x = Ok r /\ shp r = shp x /\
     forall idx, inb idx (shp x) -> call_at funcs xv (get x idx) (Ok (get r idx))).
Proof.
  intros HL Hx He. pose proof (increasing_incr _ Hx) as Hincr. split.
  { intros t. exists (ssearch xv t). pose proof (ssearch_is xv t Hincr) as P.
    split; [exact P|]. split; [destruct P; lia|]. intros j' Hj. eapply piece_is_unique; eauto. }
  intros Hok. unfold multif. destruct (shp x) as [|d s] eqn:Es.
  - destruct (Hok [] (Forall2_nil _)) as (v & j & f & P & Hf & Hv).
    assert (j = ssearch xv (get x [])) by (eapply piece_is_unique; eauto; apply ssearch_is; auto). subst j.
    rewrite Hf, Hv. cbn [rmap]. eexists. split; [reflexivity|]. split; [reflexivity|].
    intros idx Hi. inv Hi. cbn [scalar get]. exists (ssearch xv (get x [])), f. auto.
  - rewrite <- Es in *. set (xs := flat x). set (ialg := map (ssearch xv) xs).
    assert (L1 : length xs = size (shp x)) by apply flat_length.
    assert (L2 : length ialg = size (shp x)) by (unfold ialg; rewrite map_length; auto).
    assert (Nx : forall k, (k < size (shp x))%nat -> nth k ialg 0%nat = ssearch xv (nth k xs 0)).
    { intros k Hk. apply nth_map_ssearch. lia. }
    destruct (mloop_ok ialg xs funcs 0 (repeat n0 (size (shp x)))) as (rs & E & Lr & G); auto.
    + lia.
    + rewrite repeat_length. auto.
    + intros k p f Hk Hp Hi. rewrite L2 in Hk. rewrite Nx in Hi by auto.
      destruct (Hok (unravel (shp x) k)) as (v & j & f' & P & Hf & Hv); [apply inb_unravel; auto|].
      rewrite <- flat_nth in P, Hv by auto. fold xs in P, Hv.
      assert (j = ssearch xv (nth k xs 0)) by (eapply piece_is_unique; eauto; apply ssearch_is; auto).
      subst j. rewrite Hi in Hf. cbn in Hf. exists v. congruence.
    + rewrite E. cbn [bind]. eexists. split; [reflexivity|]. split; [reflexivity|].
      intros idx Hi. cbn [get]. pose proof (ravel_lt _ _ Hi) as Hk. set (k := ravel (shp x) idx) in *.
      assert (Ex : get x idx = nth k xs 0).
      { unfold xs. rewrite flat_nth by auto. unfold k. rewrite unravel_ravel; auto. }
      destruct (G k) as [_ G2]; [lia|].
      pose proof (ssearch_is xv (nth k xs 0) Hincr) as P.
      assert (Lt : (ssearch xv (nth k xs 0%R) < length funcs)%nat) by (destruct P; lia).
      destruct (nth_error funcs (ssearch xv (nth k xs 0))) as [f|] eqn:Ef.
      2:{ apply nth_error_None in Ef. lia. }
      exists (ssearch xv (nth k xs 0)), f. rewrite Ex. split; [exact P|]. split; [exact Ef|].
      apply (G2 _ f Ef). rewrite Nx by auto. reflexivity.
Qed.

(* C17: an exception is raised exactly when some point's scalar call raises, and it
   is the exception of a point in the lowest piece where that happens *)
Theorem C17_raises funcs xv x :
  length funcs = S (length xv) -> increasing xv -> (forall f, In f funcs -> elementwise f) ->
  (forall e, multif funcs xv x = Err e ->
     exists idx, inb idx (shp x) /\ call_at funcs xv (get x idx) (Err e) /\ lowest funcs xv x (get x idx)) /\
  ((exists idx e, inb idx (shp x) /\ call_at funcs xv (get x idx) (Err e)) -> exists e, multif funcs xv x = Err e).
Proof.
  intros HL Hx He. pose proof (increasing_incr _ Hx) as Hincr.
  assert (Main : (exists idx e, inb idx (shp x) /\ call_at funcs xv (get x idx) (Err e)) ->
     exists e, multif funcs xv x = Err e /\
       exists idx, inb idx (shp x) /\ call_at funcs xv (get x idx) (Err e) /\ lowest funcs xv x (get x idx)).
  { intros (idx & e & Hi & j & f & P & Hf & Hv). unfold multif. destruct (shp x) as [|d s] eqn:Es.
    - inv Hi. assert (j = ssearch xv (get x [])) by (eapply piece_is_unique; eauto; apply ssearch_is; auto). subst j.
      rewrite Hf, Hv. cbn [rmap]. exists e. split; auto. exists []. split; [constructor|].
      split; [exists (ssearch xv (get x [])), f; auto|].
      intros idx2 j1 j2 Hi2 P1 P2 Hlt. rewrite Es in Hi2. inv Hi2. pose proof (piece_is_unique _ _ _ _ P1 P2). lia.
    - rewrite <- Es in *. set (xs := flat x). set (ialg := map (ssearch xv) xs).
      assert (L1 : length xs = size (shp x)) by apply flat_length.
      assert (L2 : length ialg = size (shp x)) by (unfold ialg; rewrite map_length; auto).
      assert (Nx : forall k, (k < size (shp x))%nat -> nth k ialg 0%nat = ssearch xv (nth k xs 0)).
      { intros k Hk. apply nth_map_ssearch. lia. }
      destruct (mloop_err ialg xs funcs 0 (repeat n0 (size (shp x)))) as (k & p & g & e' & A & B & C & D & E & Mn); auto.
      + lia.
      + rewrite repeat_length; auto.
      + pose proof (ravel_lt _ _ Hi) as Hk. exists (ravel (shp x) idx), j, f, e.
        assert (Ex : get x idx = nth (ravel (shp x) idx) xs 0).
        { unfold xs. rewrite flat_nth by auto. rewrite unravel_ravel; auto. }
        split; [lia|]. split; [exact Hf|]. split; [|rewrite <- Ex; exact Hv].
        rewrite Nx by auto. cbn. rewrite <- Ex. eapply piece_is_unique; [apply ssearch_is; auto|exact P].
      + rewrite E. cbn [bind]. exists e'. split; [reflexivity|].
        rewrite L2 in A. exists (unravel (shp x) k). split; [apply inb_unravel; auto|].
        rewrite <- flat_nth by auto. fold xs. rewrite Nx in C by auto. cbn in C.
        assert (Pp : piece_is xv p (nth k xs 0)) by (rewrite <- C; apply ssearch_is; auto).
        split; [exists p, g; auto|].
        intros idx2 j1 j2 Hi2 P1 P2 Hlt. pose proof (piece_is_unique _ _ _ _ P1 Pp). subst j1.
        pose proof (ravel_lt _ _ Hi2) as Hk2.
        assert (Ex2 : get x idx2 = nth (ravel (shp x) idx2) xs 0).
        { unfold xs. rewrite flat_nth by auto. rewrite unravel_ravel; auto. }
        destruct (nth_error funcs j2) as [f2|] eqn:Ef2.
        2:{ apply nth_error_None in Ef2. destruct P2. lia. }
        destruct (Mn (ravel (shp x) idx2) j2 f2) as [v2 Hv2]; auto; try lia.
        { rewrite Nx by auto. cbn. rewrite <- Ex2. eapply piece_is_unique; [apply ssearch_is; auto|exact P2]. }
        exists v2, j2, f2. rewrite Ex2 in *. auto. }
  split; [|intros H; destruct (Main H) as (e & E & _); eauto].
  intros e E.
  destruct (Classical_Prop.classic (exists idx e, inb idx (shp x) /\ call_at funcs xv (get x idx) (Err e))) as [H|H].
  - destruct (Main H) as (e' & E' & I). replace e with e' by congruence. exact I.
  - exfalso. destruct (C15_pcwise funcs xv x HL Hx He) as [U Hr].
    destruct Hr as (r & Er & _); [|congruence].
    intros idx Hi. destruct (U (get x idx)) as (j & P & Hj & _).
    destruct (nth_error funcs j) as [f|] eqn:Ef; [|apply nth_error_None in Ef; lia].
    destruct (fsc f (get x idx)) as [v|e'] eqn:Ev.
    + exists v, j, f. auto.
    + exfalso. apply H. exists idx, e'. split; auto. exists j, f. auto.
Qed.
(* a string piece raises ValueError(msg), and only when a point is in it *)
Corollary C17_string_piece funcs xv x j msg :
  length funcs = S (length xv) -> increasing xv -> (forall f, In f funcs -> elementwise f) ->
  nth_error funcs j = Some (piece_of (IStr msg)) ->
  (forall i f t, i <> j -> nth_error funcs i = Some f -> exists v, fsc f t = Ok v) ->
  (multif funcs xv x = Err (ValueErrorMsg msg) <-> exists idx, inb idx (shp x) /\ piece_is xv j (get x idx)).
Proof.
  intros HL Hx He Hj Ho. destruct (C17_raises funcs xv x HL Hx He) as [R1 R2]. split.
  - intros E. destruct (R1 _ E) as (idx & Hi & (i & f & P & Hf & Hv) & _). exists idx. split; auto.
    destruct (Nat.eq_dec i j) as [->|Hne]; auto. destruct (Ho i f (get x idx) Hne Hf). congruence.
  - intros (idx & Hi & P). destruct R2 as [e E].
    { exists idx, (ValueErrorMsg msg). split; auto. exists j, (piece_of (IStr msg)). auto. }
    rewrite E. f_equal. destruct (R1 _ E) as (idx' & _ & (i & f & P' & Hf & Hv) & _).
    destruct (Nat.eq_dec i j) as [->|Hne].
    + rewrite Hj in Hf. injection Hf as <-. cbn in Hv. congruence.
    + destruct (Ho i f (get x idx') Hne Hf). congruence.
Qed.

(* decoration *)
Lemma evens_length {A} (l : list A) : length (evens l) = ((length l + 1) / 2)%nat /\ length (odds l) = (length l / 2)%nat.
Proof.
  assert (E : forall n (l : list A), (length l <= n)%nat -> length (evens l) = ((length l + 1) / 2)%nat).
  { induction n; intros [|a [|b r]] H; cbn in H; try lia; try reflexivity.
    cbn [evens length]. rewrite IHn by lia. replace (S (S (length r)) + 1)%nat with (1 * 2 + (length r + 1))%nat by lia.
    rewrite Nat.div_add_l by lia. reflexivity. }
  split; [eapply E; eauto|]. unfold odds. destruct l as [|a l]; [reflexivity|]. cbn [tl].
  rewrite (E (length l)) by auto. cbn [length]. replace (length l + 1)%nat with (S (length l)) by lia. reflexivity.
Qed.
Lemma bad_diff_spec xv : bad_diff xv = false <-> increasing xv.
Proof.
  unfold bad_diff, increasing. destruct xv as [|a xv]; cbn [tl].
  - split; [cbn; intros; lia|reflexivity].
  - revert a. induction xv as [|b xv IH]; intros a.
    + split; [cbn; intros _ i Hi; lia|reflexivity].
    + cbn [zipw existsb]. rewrite orb_false_iff, IH. numR. split.
      * intros [H1 H2] [|i] Hi; cbn.
        -- destruct (Rleb_spec (b - a) 0); [discriminate|]. lra.
        -- apply (H2 i). cbn in *. lia.
      * intros H. split.
        -- destruct (Rleb_spec (b - a) 0) as [H0|]; auto. specialize (H 0%nat ltac:(cbn; lia)). cbn in H. lra.
        -- intros i Hi. apply (H (S i)). cbn in *. lia.
Qed.
(* a tuple of alternating pieces and numbers *)
Theorem C17_decorate (t : list (item R)) xv : odds t = map INum xv ->
  (Nat.odd (length t) = true -> increasing xv ->
     decorate t = Ok (map piece_of (evens t), xv) /\ length (evens t) = S (length xv)) /\
  (Nat.odd (length t) = false \/ ~ increasing xv -> decorate t = Err TypeError).
Proof.
  intros E. unfold decorate. rewrite E.
  assert (M : mapM as_num (map INum xv) = Ok xv) by (clear E; induction xv; cbn; [auto|rewrite IHxv; auto]).
  rewrite M. cbn [bind]. destruct (evens_length t) as [L1 L2]. rewrite E, map_length in L2.
  assert (O : (length (evens t) =? length xv + 1)%nat = Nat.odd (length t)).
  { rewrite L1, L2. destruct (Nat.odd (length t)) eqn:Eo.
    - apply Nat.odd_spec in Eo as [m ->]. apply Nat.eqb_eq.
      replace (2 * m + 1 + 1)%nat with (0 + (m + 1) * 2)%nat by lia. rewrite Nat.div_add by lia.
      rewrite (Nat.add_comm (2 * m)), (Nat.mul_comm 2). rewrite Nat.div_add by lia. cbn. lia.
    - assert (Ev : Nat.even (length t) = true) by (rewrite <- Nat.negb_odd, Eo; reflexivity).
      apply Nat.even_spec in Ev as [m ->]. apply Nat.eqb_neq.
      rewrite (Nat.add_comm (2 * m)), (Nat.mul_comm 2). rewrite Nat.div_add, Nat.div_mul by lia. cbn. lia. }
  rewrite O. split.
  - intros Eo Hi. rewrite Eo in *. cbn [negb]. assert (bad_diff xv = false) as -> by (apply bad_diff_spec; auto).
    rewrite andb_false_r. split; [reflexivity|]. apply Nat.eqb_eq in O. lia.
  - intros [->|Hn]; [reflexivity|]. destruct (Nat.odd (length t)); [|reflexivity]. cbn [negb].
    destruct (bad_diff xv) eqn:Eb; [|exfalso; apply Hn, bad_diff_spec; auto].
    rewrite andb_true_r. destruct (Nat.ltb_spec 1 (length xv)); [reflexivity|].
    exfalso. apply Hn. intros i Hi. lia.
Qed.

(* anything else than numbers for the breakpoints *)
Theorem C17_breakpoints (t : list (item R)) : (exists it, In it (odds t) /\ forall x, it <> INum x) -> decorate t = Err TypeError.
Proof.
  intros (it & Hi & N). unfold decorate. assert (E : mapM as_num (odds t) = Err TypeError); [|rewrite E; reflexivity].
  induction (odds t) as [|a l IH]; [destruct Hi|]. cbn [mapM]. destruct Hi as [->|Hi].
  - destruct it as [f|s|x]; try reflexivity. destruct (N x eq_refl).
  - destruct a as [f|s|x]; try reflexivity. cbn [as_num bind]. rewrite (IH Hi). reflexivity.
Qed.
Example C17_breakpoints_case : decorate [IStr "a"; INum 0; IStr "b"; IStr "c"; IStr "d"] = Err TypeError.
Proof. apply C17_breakpoints. exists (IStr "c"). split; [right; left; reflexivity|discriminate]. Qed.
(* a number instead of a function: a TypeError as soon as a point is in its piece *)
Theorem C17_number (c : R) (x : nd R) : (shp x = [] \/ size (shp x) <> 0%nat) -> multif [piece_of (INum c)] [] x = Err TypeError.
Proof.
  intros H. unfold multif. destruct (shp x) as [|d s] eqn:Es; [reflexivity|]. destruct H as [H|H]; [discriminate|].
  assert (L : length (flat x) = size (d :: s)) by (rewrite flat_length, Es; reflexivity). destruct (flat x) as [|a l]; [exfalso; apply H; symmetry; exact L|]. reflexivity.
Qed.
Example C17_number_case : multif [piece_of (INum 3)] [] (vec 0 [1; 2]) = Err TypeError.
Proof. apply C17_number. right. discriminate. Qed.
(* a piece need not be elementwise: an array of the right size is used as it is, a single value is repeated, any other size is a ValueError *)
Theorem C15_one_piece (f : pcfun R) (x : nd R) v : shp x <> [] -> size (shp x) <> 0%nat -> fvec f (flat x) = Ok v ->
  (length v = size (shp x) -> exists r, multif [f] [] x = Ok r /\ shp r = shp x /\ flat r = v) /\
  (forall c, v = [c] -> exists r, multif [f] [] x = Ok r /\ shp r = shp x /\ forall idx, inb idx (shp x) -> get r idx = c) /\
  (length v <> size (shp x) -> length v <> 1%nat -> multif [f] [] x = Err ValueError).
Proof.
  intros Hs Hz Hv. set (n := size (shp x)) in *.
  assert (Z : map (ssearch []) (flat x) = repeat 0%nat n).
  { unfold n. rewrite <- flat_length. clear. induction (flat x) as [|a l IH]; [reflexivity|]. cbn [map length repeat]. rewrite IH. reflexivity. }
  assert (SL : forall m (l : list R), length l = m -> sel (repeat 0%nat m) 0 l = l).
  { induction m as [|m IH]; intros [|a l] Hl; try discriminate; [reflexivity|]. cbn. rewrite IH; auto. }
  assert (FI : forall m, length (filter (fun j => (j =? 0)%nat) (repeat 0%nat m)) = m) by (induction m; cbn; auto).
  assert (PU : forall m (l rs : list R), length l = m -> length rs = m -> put (repeat 0%nat m) 0 l rs = l).
  { induction m as [|m IH]; intros [|a l] [|b rs] H1 H2; try discriminate; [reflexivity|]. cbn. rewrite IH; auto. }
  assert (M : multif [f] [] x = bind (set_mask (repeat 0%nat n) 0 v (repeat 0 n)) (fun rs => Ok (Nd (shp x) (fun idx => nth (ravel (shp x) idx) rs 0)))).
  { unfold multif. destruct (shp x) as [|d s] eqn:Es; [congruence|]. rewrite Z. fold n. cbn [mloop]. rewrite SL by (rewrite flat_length, Es; reflexivity).
    destruct (flat x) as [|a l] eqn:Ef; [exfalso; apply Hz; unfold n; rewrite <- Es, <- flat_length, Ef; reflexivity|]. rewrite Hv. cbn [bind].
    change n0 with 0. destruct (set_mask (repeat 0%nat n) 0 v (repeat 0 n)); reflexivity. }
  assert (K : forall l, length l = n -> exists r, Ok (Nd (shp x) (fun idx => nth (ravel (shp x) idx) l 0)) = Ok r /\ shp r = shp x /\ flat r = l).
  { intros l Hl. eexists. split; [reflexivity|]. split; [reflexivity|]. apply (nth_ext _ _ 0 0); [rewrite flat_length; cbn [shp]; fold n; lia|].
    intros k Hk. rewrite flat_length in Hk. cbn [shp] in Hk. rewrite flat_nth by exact Hk. cbn [shp get]. rewrite ravel_unravel; auto. }
  rewrite M. unfold set_mask. rewrite FI. split; [|split].
  - intros E. rewrite (proj2 (Nat.eqb_eq _ _) E). cbn [bind]. rewrite PU by (try apply repeat_length; auto). apply K. exact E.
  - intros c ->. cbn [length hd].
    assert (R : exists rs, (if (1 =? n)%nat then Ok (put (repeat 0%nat n) 0 [c] (repeat 0 n)) else if (1 =? 1)%nat then Ok (put (repeat 0%nat n) 0 (repeat c n) (repeat 0 n)) else Err ValueError) = Ok rs /\ rs = repeat c n).
    { destruct (Nat.eqb_spec 1 n) as [E|N].
      - eexists. split; [reflexivity|]. rewrite PU by (try apply repeat_length; auto). rewrite <- E. reflexivity.
      - eexists. split; [reflexivity|]. apply PU; apply repeat_length. }
    destruct R as (rs & -> & ->). cbn [bind]. eexists. split; [reflexivity|]. split; [reflexivity|]. intros idx Hi. cbn [get]. pose proof (ravel_lt _ _ Hi) as HL. rewrite (nth_indep _ 0 c) by (rewrite repeat_length; exact HL). apply nth_repeat.
  - intros N1 N2. destruct (Nat.eqb_spec (length v) n); [contradiction|]. destruct (Nat.eqb_spec (length v) 1); [contradiction|]. reflexivity.
Qed.
Example C15_one_piece_case : let f := PcFun (fun t => Ok t) (fun l => Ok [fold_right Rplus 0 l]) in
  exists r, multif [f] [] (vec 0 [1; 2; 4]) = Ok r /\ get r [0%nat] = 7 /\ get r [2%nat] = 7.
Proof.
  cbv zeta. destruct (C15_one_piece (PcFun (fun t => Ok t) (fun l => Ok [fold_right Rplus 0 l])) (vec 0 [1; 2; 4]) [7]) as (_ & H & _); try discriminate.
  - cbn. do 2 f_equal. ring.
  - destruct (H 7 eq_refl) as (r & E & _ & G). exists r. split; [exact E|]. split; apply G; repeat constructor; cbn; lia.
Qed.

(* C16: the documented convention xa <= x < xb *)
Definition piece_doc (xv : list R) (j : nat) (x : R) : Prop :=
  (j <= length xv)%nat /\
  (forall i, (i < j)%nat -> nth i xv 0 <= x) /\ (forall i, (j <= i < length xv)%nat -> x < nth i xv 0).
Definition const_fun (c : R) : pcfun R := PcFun (fun _ => Ok c) (fun l => mapM (fun _ => Ok c) l).
Lemma const_elementwise c : elementwise (const_fun c).
Proof. intros l _. reflexivity. Qed.
Lemma string_elementwise s : elementwise (piece_of (IStr s)).
Proof. intros [|a l] H; [congruence|reflexivity]. Qed.
(* off the breakpoints the documented piece is used *)
Theorem C16_convention_partial funcs xv t j :
  length funcs = S (length xv) -> increasing xv -> (forall i, (i < length xv)%nat -> nth i xv 0 <> t) ->
  piece_doc xv j t -> multif funcs xv (scalar t) =
    match nth_error funcs j with Some f => rmap scalar (fsc f t) | None => Err IndexError end.
Proof.
  intros HL Hx Hne (A & B & C). unfold multif. cbn [shp scalar get].
  assert (E : ssearch xv t = j).
  { eapply piece_is_unique; [apply ssearch_is, increasing_incr; auto|].
    split; [exact A|]. split; intros i Hi.
    - specialize (B i Hi). specialize (Hne i ltac:(lia)). lra.
    - specialize (C i Hi). lra. }
  rewrite E. reflexivity.
Qed.
(* at every breakpoint the piece on its left is used *)
Theorem C16_convention_refuted :
  (forall funcs xv j, length funcs = S (length xv) -> increasing xv -> (j < length xv)%nat ->
     piece_doc xv (S j) (nth j xv 0) /\
     multif funcs xv (scalar (nth j xv 0)) =
       match nth_error funcs j with Some f => rmap scalar (fsc f (nth j xv 0)) | None => Err IndexError end) /\
  exists r, multif [const_fun 1; const_fun 2] [0] (scalar 0) = Ok r /\ get r [] = 1.
Proof.
  split.
  - intros funcs xv j HL Hx Hj. pose proof (increasing_incr _ Hx) as Hi. split.
    + split; [lia|]. split; intros i Hij.
      * destruct (Nat.eq_dec i j) as [->|]; [lra|]. left. apply incr_lt; auto; lia.
      * apply incr_lt; auto; lia.
    + unfold multif. cbn [shp scalar get].
      assert (E : ssearch xv (nth j xv 0) = j).
      { eapply piece_is_unique; [apply ssearch_is; auto|]. split; [lia|]. split; intros i Hij.
        - apply incr_lt; auto; lia.
        - destruct (Nat.eq_dec i j) as [->|]; [lra|]. left. apply incr_lt; auto; lia. }
      rewrite E. reflexivity.
  - unfold multif. cbn [shp scalar get ssearch]. numR. destruct (Rltb_spec 0 0); [lra|]. cbn.
    eexists. split; reflexivity.
Qed.

(* a three piece function with a string piece at the left *)
Example C15_case :
  let t := [IStr "blow up"; INum 0; IFun (const_fun 5); INum 8; IFun (const_fun 7)] in
  exists funcs xv, decorate t = Ok (funcs, xv) /\ length funcs = S (length xv) /\ increasing xv /\
    (forall f, In f funcs -> elementwise f) /\
    (exists r, multif funcs xv (vec 0 [9; 3; 10]) = Ok r /\
       map (fun i => get r [i]) [0; 1; 2]%nat = [7; 5; 7]) /\
    multif funcs xv (vec 0 [9; -1]) = Err (ValueErrorMsg "blow up").
Proof.
  cbv zeta. exists [piece_of (IStr "blow up"); const_fun 5; const_fun 7], [0; 8].
  assert (I : increasing [0; 8]).
  { intros [|i] Hi; cbn in *; [lra|lia]. }
  assert (S9 : ssearch [0; 8] 9 = 2%nat) by (cbn; numR; destruct (Rltb_spec 0 9); [|lra]; destruct (Rltb_spec 8 9); [reflexivity|lra]).
  assert (S10 : ssearch [0; 8] 10 = 2%nat) by (cbn; numR; destruct (Rltb_spec 0 10); [|lra]; destruct (Rltb_spec 8 10); [reflexivity|lra]).
  assert (S3 : ssearch [0; 8] 3 = 1%nat) by (cbn; numR; destruct (Rltb_spec 0 3); [|lra]; destruct (Rltb_spec 8 3); [lra|reflexivity]).
  assert (Sm : ssearch [0; 8] (-1) = 0%nat) by (cbn; numR; destruct (Rltb_spec 0 (-1)); [lra|reflexivity]).
  split.
  { apply (proj1 (C17_decorate [IStr "blow up"; INum 0; IFun (const_fun 5); INum 8; IFun (const_fun 7)] [0; 8] eq_refl));
      [reflexivity|exact I]. }
  split; [reflexivity|]. split; [exact I|].
  split. { intros f [<-|[<-|[<-|[]]]]; auto using const_elementwise, string_elementwise. }
  split.
  - unfold multif. cbn [shp vec length size fold_right Nat.mul Nat.add flat seq map get unravel hd nth repeat Nat.div Nat.divmod fst snd Nat.sub Nat.modulo].
    rewrite S9, S3, S10. cbn. eexists. split; reflexivity.
  - unfold multif. cbn [shp vec length size fold_right Nat.mul Nat.add flat seq map get unravel hd nth repeat Nat.div Nat.divmod fst snd Nat.sub Nat.modulo].
    rewrite S9, Sm. reflexivity.
Qed.
Print Assumptions C15_pcwise.
Print Assumptions C17_raises.
