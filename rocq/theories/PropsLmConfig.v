(* C70: the options of levmar (npplus/lsqfit.py:277-297, 386-394). *)
From Coq Require Import String List Arith ZArith QArith Bool Lia.
From Verif Require Import Num PyBase NdArray PwPoly SolvePer LsqModel Levmar LevmarProofs ItemAttr LmConfig.
Import ListNotations.
Local Open Scope string_scope.
Local Open Scope nat_scope.
Local Open Scope list_scope.

Section Props.
  Context {K : Type} {NK : Num K}.
  Variable solve : arr2 K -> list K -> res (list K).
  Variable inv : arr2 K -> res (arr2 K).

  Lemma dget_dset_eq (d : @cdict K) k v : dget (dset d k v) k = Ok v.
  Proof.
    induction d as [|[k' v'] d IH]; cbn; [rewrite String.eqb_refl; reflexivity|].
    destruct (String.eqb k' k) eqn:E; cbn; rewrite E; auto.
  Qed.
  Lemma dget_dset_neq (d : @cdict K) k k' v : k' <> k -> dget (dset d k v) k' = dget d k'.
  Proof.
    intros N. induction d as [|[q v'] d IH]; cbn.
    - destruct (String.eqb_spec k k'); [congruence|reflexivity].
    - destruct (String.eqb_spec q k); cbn.
      + subst q. destruct (String.eqb_spec k k'); [congruence|reflexivity].
      + destruct (String.eqb q k'); auto.
  Qed.
  Lemma dget_notin (d : @cdict K) k : ~ In k (map fst d) -> dget d k = Err KeyError.
  Proof.
    induction d as [|[q v] d IH]; cbn; intros H; [reflexivity|].
    destruct (String.eqb_spec q k); [subst; exfalso; apply H; auto|]. apply IH. intros Q. apply H. auto.
  Qed.
  (* the value of an option: that of the user's dict, else the default *)
  Definition option_value (c0 ud : @cdict K) (k : string) : res cval :=
    match dget ud k with Ok v => Ok v | Err _ => dget c0 k end.
  Lemma dget_dupdate (e : @cdict K) : NoDup (map fst e) -> forall d k, dget (dupdate d e) k = option_value d e k.
  Proof.
    unfold dupdate. induction e as [|[q v] e IH]; intros ND d k; cbn [fold_left map fst snd] in *; [reflexivity|].
    inversion_clear ND as [|? ? N1 N2]. rewrite IH by auto. unfold option_value. cbn [dget].
    destruct (String.eqb_spec q k) as [->|Hn].
    - rewrite (dget_notin e k N1), dget_dset_eq. reflexivity.
    - rewrite dget_dset_neq by auto. reflexivity.
  Qed.
  Lemma nth_error_upd_neq {A} i j (v : A) l : i <> j -> nth_error (upd i v l) j = nth_error l j.
  Proof. revert i j; induction l as [|x l IH]; intros [|i] [|j] H; cbn; auto; congruence. Qed.
  Lemma nth_error_upd_eq {A} i (v : A) l : i < length l -> nth_error (upd i v l) i = Some v.
  Proof. revert i; induction l as [|x l IH]; intros [|i] H; cbn in *; try lia; auto. apply IH. lia. Qed.

  (* the dict a call works with *)
  Definition work_dict (h : @cheap K) (config : nat) (a : @lmcall K) : option (@cdict K) :=
    match nth_error h config, match a_cfg a with None => Some [] | Some u => nth_error h u end with
    | Some c0, Some ud => Some (match a_cfg a with None => c0 | Some _ => dupdate c0 ud end)
    | _, _ => None
    end.
  Lemma heap_eq fo fi config a h tr d : work_dict h config a = Some d ->
    levmar_heap solve inv fo fi config a h tr =
    match lm_options (lisgenf (a_f a)) d (a_kw a) with
    | Err e => (Err e, h ++ [d], tr)
    | Ok (cfg, kw) =>
      match levmar_run (a_f a) solve inv fo fi cfg (a_data a) (a_p0 a) kw tr with
      | (Err e, tr') => (Err e, h ++ [d], tr')
      | (Ok None, tr') => (Ok None, h ++ [d], tr')
      | (Ok (Some m), tr') => (Ok (Some (m, length h)), h ++ [dupdate d (lm_info m)], tr')
      end
    end.
  Proof.
    intros H. unfold levmar_heap, work_dict in *. destruct (nth_error h config) as [c0|]; [|discriminate].
    destruct (match a_cfg a with None => Some [] | Some u => nth_error h u end) as [ud|]; [|discriminate].
    assert (U : forall x y : cdict, hupd (h ++ [x]) (length h) y = h ++ [y]).
    { intros x y. unfold hupd. clear. induction h as [|z l IH]; cbn; [reflexivity|]. f_equal. exact IH. }
    assert (E : match a_cfg a with None => h ++ [c0] | Some _ => hupd (h ++ [c0]) (length h) (dupdate c0 ud) end = h ++ [d]).
    { destruct (a_cfg a); injection H as <-; [apply U|reflexivity]. }
    rewrite E. rewrite app_nth2, Nat.sub_diag by lia. cbn [nth].
    destruct (lm_options _ d _) as [[cfg kw]|]; [|reflexivity].
    destruct (levmar_run _ _ _ _ _ _ _ _ _ _) as [[[m|]|e] tr']; try reflexivity. rewrite U. reflexivity.
  Qed.
  Lemma heap_none fo fi config a h tr : work_dict h config a = None -> levmar_heap solve inv fo fi config a h tr = (Err TypeError, h, tr).
  Proof.
    intros H. unfold levmar_heap, work_dict in *. destruct (nth_error h config) as [c0|]; [|reflexivity].
    destruct (match a_cfg a with None => Some [] | Some u => nth_error h u end); [discriminate|reflexivity].
  Qed.

  (* C70: no dict existing before a call is modified by it: neither levmar.config nor the
     user's dict, whatever the outcome *)
  Theorem C70_unmodified fo fi config a h tr i : i < length h ->
    nth_error (snd (fst (levmar_heap solve inv fo fi config a h tr))) i = nth_error h i.
  Proof.
    intros Hi. destruct (work_dict h config a) as [d|] eqn:E; [|rewrite heap_none by auto; reflexivity].
    rewrite (heap_eq _ _ _ _ _ _ _ E).
    destruct (lm_options _ d _) as [[cfg kw]|]; [|cbn; rewrite nth_error_app1; auto].
    destruct (levmar_run _ _ _ _ _ _ _ _ _ _) as [[[m|]|e] tr']; cbn; rewrite nth_error_app1; auto.
  Qed.

  (* C70: the options in force are those of the user's dict where it has them, else the
     defaults; the keywords prel and pabs come before both.  The values x and y of the
     last two fields are never used. *)
  Theorem C70_options fo fi config a h tr c0 ud it tol l0 lx g x y prel pabs :
    let opt := option_value c0 ud in
    let choose kwv l := match kwv with Some l' => Some l' | None => if lisgenf (a_f a) then None else Some l end in
    nth_error h config = Some c0 -> match a_cfg a with None => ud = [] | Some u => nth_error h u = Some ud end -> NoDup (map fst ud) ->
    bind (opt "itmax") cint = Ok it -> bind (opt "tol") cnum = Ok tol -> bind (opt "lambda0") cnum = Ok l0 ->
    bind (opt "lambdax") cnum = Ok lx -> bind (opt "gain") cnum = Ok g ->
    (lisgenf (a_f a) = false -> k_prel (a_kw a) = None -> bind (opt "prel") clist = Ok prel) ->
    (lisgenf (a_f a) = false -> k_pabs (a_kw a) = None -> bind (opt "pabs") clist = Ok pabs) ->
    let kw := LmKw (k_errs (a_kw a)) (k_pfix (a_kw a)) (k_pmin (a_kw a)) (k_pmax (a_kw a))
                   (choose (k_prel (a_kw a)) prel) (choose (k_pabs (a_kw a)) pabs) in
    let run := levmar_run (a_f a) solve inv fo fi (LmCfg it tol l0 lx g x y) (a_data a) (a_p0 a) kw tr in
    let out := levmar_heap solve inv fo fi config a h tr in
    snd out = snd run /\
    match fst run with
    | Ok (Some m) => fst (fst out) = Ok (Some (m, length h)) /\
        exists info, nth_error (snd (fst out)) (length h) = Some info /\
          dget info "niter" = Ok (CInt (l_niter m)) /\ dget info "neval" = Ok (CInt (Z.of_nat (l_neval m))) /\
          dget info "lamda" = Ok (CNum (l_lam m)) /\ dget info "chi20" = Ok (CNum (l_chi20 m)) /\ dget info "p0" = Ok (CArr (a_p0 a)) /\
          forall k, ~ In k ["src"; "niter"; "neval"; "p0"; "chi20"; "lamda"] -> dget info k = opt k
    | Ok None => fst (fst out) = Ok None
    | Err e => fst (fst out) = Err e
    end.
  Proof.
    intros opt choose Hc Hu ND E1 E2 E3 E4 E5 E6 E7 kw run out.
    assert (WD : exists d, work_dict h config a = Some d /\ forall k, dget d k = opt k).
    { unfold work_dict. rewrite Hc. destruct (a_cfg a) as [u|].
      - rewrite Hu. eexists. split; [reflexivity|]. intros k. apply dget_dupdate, ND.
      - subst ud. exists c0. split; [reflexivity|]. intros k. reflexivity. }
    destruct WD as (d & WD & Hd).
    assert (LO : lm_options (lisgenf (a_f a)) d (a_kw a) = Ok (LmCfg it tol l0 lx g n1 n1, kw)).
    { unfold lm_options. rewrite !Hd.
      assert (S1 : step_opt (lisgenf (a_f a)) (k_prel (a_kw a)) d "prel" = Ok (choose (k_prel (a_kw a)) prel)).
      { unfold step_opt, choose. rewrite Hd. destruct (lisgenf (a_f a)); [destruct (k_prel (a_kw a)); reflexivity|].
        destruct (k_prel (a_kw a)) as [l|]; [reflexivity|]. specialize (E6 eq_refl eq_refl).
        destruct (opt "prel") as [v|]; [|discriminate]. cbn [bind] in *. rewrite E6. reflexivity. }
      assert (S2 : step_opt (lisgenf (a_f a)) (k_pabs (a_kw a)) d "pabs" = Ok (choose (k_pabs (a_kw a)) pabs)).
      { unfold step_opt, choose. rewrite Hd. destruct (lisgenf (a_f a)); [destruct (k_pabs (a_kw a)); reflexivity|].
        destruct (k_pabs (a_kw a)) as [l|]; [reflexivity|]. specialize (E7 eq_refl eq_refl).
        destruct (opt "pabs") as [v|]; [|discriminate]. cbn [bind] in *. rewrite E7. reflexivity. }
      rewrite S1, S2. cbn [bind]. rewrite E1, E2, E3, E4, E5. reflexivity. }
    assert (RX : run = levmar_run (a_f a) solve inv fo fi (LmCfg it tol l0 lx g n1 n1) (a_data a) (a_p0 a) kw tr).
    { unfold run, levmar_run. cbn [k_prel k_pabs kw c_prel c_pabs c_lambda0].
      destruct (a_f a) as [q|q]; cbn [lisgenf choose].
      - unfold choose. cbn [lisgenf]. destruct (k_prel (a_kw a)), (k_pabs (a_kw a)); reflexivity.
      - assert (B : forall x : K, exists r, bc_list (length (a_p0 a)) [x] = Ok r).
        { intros z. unfold bc_list. destruct (_ =? _)%nat; eauto. }
        unfold choose. cbn [lisgenf].
        destruct (k_prel (a_kw a)) as [l|]; destruct (k_pabs (a_kw a)) as [l'|]; cbn.
        + reflexivity.
        + destruct (B y) as (r & ->), (B n1) as (r' & ->). reflexivity.
        + destruct (B x) as (r & ->), (B n1) as (r' & ->). reflexivity.
        + destruct (B x) as (r & ->), (B y) as (r' & ->), (B n1) as (r'' & ->). reflexivity. }
    unfold out. rewrite (heap_eq _ _ _ _ _ _ _ WD), LO, <- RX. clear RX.
    assert (P0 : forall m tr', run = (Ok (Some m), tr') -> l_p0 m = a_p0 a).
    { intros m tr'. unfold run, levmar_run, sbind, slift, sret. intros H.
      repeat match type of H with context [match ?e with _ => _ end] => destruct e; try discriminate end; injection H as <- _; reflexivity. }
    destruct run as [[[m|]|e] tr']; cbn [fst snd]; try (split; reflexivity).
    split; [reflexivity|]. split; [reflexivity|].
    exists (dupdate d (lm_info m)). rewrite nth_error_app2, Nat.sub_diag by lia. cbn [nth_error]. split; [reflexivity|].
    assert (NDI : NoDup (map fst (lm_info m))).
    { cbn. repeat constructor; cbn; intuition discriminate. }
    rewrite !dget_dupdate by exact NDI. unfold option_value at 1 2 3 4 5. cbn [dget lm_info].
    rewrite <- (P0 m tr' eq_refl). repeat (split; [reflexivity|]).
    intros k Hk. rewrite dget_dupdate by exact NDI. unfold option_value at 1. rewrite dget_notin; [apply Hd|].
    exact Hk.
  Qed.

  (* C70: an option missing everywhere is a KeyError before any call of f *)
  Theorem C70_missing fo fi config a (h : @cheap K) tr (c0 ud : @cdict K) k :
    nth_error h config = Some c0 -> match a_cfg a with None => ud = [] | Some u => nth_error h u = Some ud end -> NoDup (map fst ud) ->
    In k ["itmax"; "tol"; "lambda0"; "lambdax"; "gain"] -> (forall e, In e ud -> fst e <> k) -> (forall e, In e c0 -> fst e <> k) ->
    exists e, fst (fst (levmar_heap solve inv fo fi config a h tr)) = Err e /\ snd (levmar_heap solve inv fo fi config a h tr) = tr.
  Proof.
    intros Hc Hu ND Hk N1 N2.
    assert (WD : exists d, work_dict h config a = Some d /\ forall k, dget d k = option_value c0 ud k).
    { unfold work_dict. rewrite Hc. destruct (a_cfg a) as [u|].
      - rewrite Hu. eexists. split; [reflexivity|]. intros q. apply dget_dupdate, ND.
      - subst ud. exists c0. split; [reflexivity|]. intros q. reflexivity. }
    destruct WD as (d & WD & Hd). rewrite (heap_eq _ _ _ _ _ _ _ WD).
    assert (E : exists e, dget d k = Err e).
    { rewrite Hd. unfold option_value. rewrite !dget_notin; eauto; intros Q; apply in_map_iff in Q as (e & <- & He); [apply (N2 e He)|apply (N1 e He)]; reflexivity. }
    destruct E as (e & E).
    assert (LO : exists e', lm_options (lisgenf (a_f a)) d (a_kw a) = Err e').
    { unfold lm_options. destruct (step_opt _ _ _ "prel"); cbn [bind]; [|eauto]. destruct (step_opt _ _ _ "pabs"); cbn [bind]; [|eauto].
      assert (BE : forall (B : Type) (f : cval -> res B), bind (dget d k) f = Err e) by (intros; rewrite E; reflexivity).
      cbn in Hk. destruct (bind (dget d "itmax") cint) eqn:Q1; cbn [bind]; [|eauto].
      destruct (bind (dget d "tol") cnum) eqn:Q2; cbn [bind]; [|eauto].
      destruct (bind (dget d "lambda0") cnum) eqn:Q3; cbn [bind]; [|eauto].
      destruct (bind (dget d "lambdax") cnum) eqn:Q4; cbn [bind]; [|eauto].
      destruct (bind (dget d "gain") cnum) eqn:Q5; cbn [bind]; [|eauto].
      exfalso. repeat (destruct Hk as [<-|Hk]; [rewrite BE in *; discriminate|]). contradiction. }
    destruct LO as (e' & ->). cbn. eauto.
  Qed.

  (* forget the reference to the info dict *)
  Definition strip (r : res (option (@lmfit K * nat))) : res (option lmfit) :=
    match r with Ok o => Ok (option_map fst o) | Err e => Err e end.
  Lemma heap_same fo fi config a h h' tr : (forall i, i < length h -> nth_error h' i = nth_error h i) ->
    config < length h -> (forall u, a_cfg a = Some u -> u < length h) ->
    strip (fst (fst (levmar_heap solve inv fo fi config a h' tr))) = strip (fst (fst (levmar_heap solve inv fo fi config a h tr))) /\
    snd (levmar_heap solve inv fo fi config a h' tr) = snd (levmar_heap solve inv fo fi config a h tr).
  Proof.
    intros H Hc Hu. assert (E : work_dict h' config a = work_dict h config a).
    { unfold work_dict. rewrite (H config Hc). destruct (a_cfg a) as [u|]; [|reflexivity]. rewrite (H u (Hu u eq_refl)). reflexivity. }
    destruct (work_dict h config a) as [d|] eqn:E2.
    - rewrite (heap_eq _ _ _ _ _ _ _ E), (heap_eq _ _ _ _ _ _ _ E2).
      destruct (lm_options _ d _) as [[cfg kw]|]; [|split; reflexivity].
      destruct (levmar_run _ _ _ _ _ _ _ _ _ _) as [[[m|]|e] tr']; split; reflexivity.
    - rewrite !heap_none by auto. split; reflexivity.
  Qed.
  (* C70: in a sequence of calls, every call gives what it would give as the first one:
     the options of earlier calls leave no trace *)
  Theorem C70_sequence fo fi config l h tr : config < length h -> (forall a u, In a l -> a_cfg a = Some u -> u < length h) ->
    let out := levmar_calls solve inv fo fi config l h tr in
    (forall i, i < length h -> nth_error (snd (fst out)) i = nth_error h i) /\
    exists trs, length trs = S (length l) /\ nth 0 trs [] = tr /\
      forall i a, nth_error l i = Some a ->
        let alone := levmar_heap solve inv fo fi config a h (nth i trs []) in
        option_map strip (nth_error (fst (fst out)) i) = Some (strip (fst (fst alone))) /\ nth (S i) trs [] = snd alone.
  Proof.
    intros Hc. cbn zeta.
    assert (G : forall l h' tr, (forall i, i < length h -> nth_error h' i = nth_error h i) -> (forall a u, In a l -> a_cfg a = Some u -> u < length h) ->
      let out := levmar_calls solve inv fo fi config l h' tr in
      (forall i, i < length h -> nth_error (snd (fst out)) i = nth_error h i) /\
      exists trs, length trs = S (length l) /\ nth 0 trs [] = tr /\
      forall i a, nth_error l i = Some a ->
        let alone := levmar_heap solve inv fo fi config a h (nth i trs []) in
        option_map strip (nth_error (fst (fst out)) i) = Some (strip (fst (fst alone))) /\ nth (S i) trs [] = snd alone).
    { clear l tr. induction l as [|a l IH]; intros h' tr Hh Hl; cbn [levmar_calls].
      - cbn. split; [exact Hh|]. exists [tr]. repeat split; auto; destruct i; discriminate.
      - destruct (heap_same fo fi config a h h' tr Hh Hc (fun u => Hl a u (or_introl eq_refl))) as [S1 S2].
        assert (Lh : length h <= length h').
        { destruct (Nat.le_gt_cases (length h) (length h')); auto. exfalso. specialize (Hh (length h') H).
          apply nth_error_Some in H. rewrite <- Hh in H. apply H. apply nth_error_None. lia. }
        pose proof (fun i Hi => C70_unmodified fo fi config a h' tr i (Nat.lt_le_trans _ _ _ Hi Lh)) as UM.
        destruct (levmar_heap solve inv fo fi config a h' tr) as [[y h1] tr1]. cbn [fst snd] in *.
        destruct (IH h1 tr1) as [A (trs & B & C & D)].
        { intros i Hi. rewrite (UM i Hi). apply Hh, Hi. }
        { intros b u Hb. apply Hl. right. exact Hb. }
        destruct (levmar_calls solve inv fo fi config l h1 tr1) as [[ys h2] tr2]. cbn [fst snd] in *.
        split; [exact A|]. exists (tr :: trs). cbn [length]. split; [lia|]. split; [reflexivity|].
        intros [|i] b Hb; cbn [nth_error nth] in *.
        + injection Hb as <-. cbn. rewrite S1. split; [reflexivity|]. rewrite C. exact S2.
        + exact (D i b Hb). }
    intros Hl. apply (G l h tr); auto.
  Qed.
End Props.
(* cases: RunLevmar.run_config *)
Print Assumptions C70_unmodified.
Print Assumptions C70_options.
Print Assumptions C70_missing.
Print Assumptions C70_sequence.
