(* Arguments of levmar that do not fit (npplus/lsqfit.py:277-306). *)
From Coq Require Import List Arith ZArith Lia Bool Reals.
From Verif Require Import Num PyBase NdArray NdLemmas PwPoly SolvePer LsqModel Levmar LevmarProofs PropsLevmar.
Import ListNotations.
Local Open Scope st_scope.

Section Args.
  Context {K : Type} {NK : Num K}.
  (* a computation only adds calls to the record *)
  Definition extends {A} (m : St K A) : Prop := forall tr, exists l, snd (m tr) = tr ++ l.
  Lemma ext_ret {A} (a : A) : extends (sret a).
  Proof. intros tr. exists []. cbn. symmetry. apply app_nil_r. Qed.
  Lemma ext_lift {A} (r : res A) : extends (slift r).
  Proof. intros tr. exists []. cbn. symmetry. apply app_nil_r. Qed.
  Lemma ext_bind {A B} (m : St K A) (k : A -> St K B) : extends m -> (forall a, extends (k a)) -> extends (sbind m k).
  Proof.
    intros H Hk tr. unfold sbind. destruct (H tr) as [l El]. destruct (m tr) as [[a|e] tr']; cbn in *; subst tr'; [|eauto].
    destruct (Hk a (tr ++ l)) as [l' ->]. exists (l ++ l'). symmetry. apply app_assoc.
  Qed.
  Lemma ext_plain g p : extends (@call_plain K g p).
  Proof. intros tr. exists [p]. reflexivity. Qed.
  Lemma ext_gen g p : extends (@call_gen K g p).
  Proof. intros tr. exists [p]. reflexivity. Qed.
  Lemma ext_np_loop h mask p fp f0 : forall dps i, extends (np_loop h mask p fp f0 i dps).
  Proof.
    induction dps as [|d dps IH]; intros i; cbn [np_loop]; [apply ext_ret|].
    destruct (d =? n0)%K; [apply ext_lift|]. apply ext_bind; [apply ext_plain|]. intros a.
    repeat first [apply ext_bind | apply ext_lift | apply IH | apply ext_ret | intros ?].
  Qed.
  Lemma ext_both f p0 mask lo hi prel pabs p : extends (g_both f p0 mask lo hi prel pabs p).
  Proof.
    unfold g_both, numerical_partials. destruct f as [h|h];
      repeat first [apply ext_bind | apply ext_plain | apply ext_gen | apply ext_lift | apply ext_np_loop | apply ext_ret | intros ?].
  Qed.
  Lemma ext_next f p0 mask p : extends (g_next f p0 mask p).
  Proof. unfold g_next. destruct f as [h|h]; repeat first [apply ext_bind | apply ext_plain | apply ext_gen | apply ext_lift | intros ?]. Qed.
  Lemma ext_inner f solve data wgt p0 mask lo hi cfg : forall fi p c a b lam ne, extends (lm_inner f solve data wgt p0 mask lo hi cfg fi p c a b lam ne).
  Proof.
    induction fi as [|fi IH]; intros; cbn [lm_inner]; [apply ext_ret|].
    repeat first [apply ext_bind | apply ext_lift | apply ext_next | intros ?]. destruct (_ || _); [apply ext_ret|].
    destruct (_ <? _)%K; [apply ext_lift|apply IH].
  Qed.
  Lemma ext_outer f solve data wgt p0 mask lo hi prel pabs cfg : forall fo fi p chi lam ni ne,
    extends (lm_outer f solve data wgt p0 mask lo hi prel pabs cfg fo fi p chi lam ni ne).
  Proof.
    induction fo as [|fo IH]; intros; cbn [lm_outer]; [apply ext_ret|].
    apply ext_bind; [apply ext_both|]. intros fd. apply ext_bind; [apply ext_lift|]. intros dm. apply ext_bind; [apply ext_lift|]. intros wd.
    apply ext_bind; [destruct chi; repeat first [apply ext_bind | apply ext_lift | apply ext_ret | intros ?]|]. intros cc.
    do 4 (apply ext_bind; [apply ext_lift|]; intros ?). destruct (_ =? _)%K; [apply ext_ret|].
    apply ext_bind; [apply ext_lift|]. intros be. apply ext_bind; [apply ext_inner|]. intros [[[[? ?] ?] ?]|]; [|apply ext_ret].
    destruct (_ <=? _)%K; [apply ext_ret|]. destruct (_ <=? _)%Z; [apply ext_ret|apply IH].
  Qed.
  (* the first call recorded *)
  Definition starts {A} (q : list K) (m : St K A) : Prop := exists l, snd (m []) = q :: l.
  Lemma starts_bind {A B} q (m : St K A) (k : A -> St K B) : starts q m -> (forall a, extends (k a)) -> starts q (sbind m k).
  Proof.
    intros [l E] Hk. unfold starts, sbind. destruct (m []) as [[a|e] tr]; cbn in *; subst tr; [|eauto].
    destruct (Hk a (q :: l)) as [l' ->]. eexists. reflexivity.
  Qed.
  Lemma starts_both f p0 mask lo hi prel pabs p : starts (put mask p0 p) (g_both f p0 mask lo hi prel pabs p).
  Proof.
    unfold g_both, numerical_partials. destruct f as [h|h]; (apply starts_bind; [eexists; reflexivity|]); intros a;
      repeat first [apply ext_bind | apply ext_lift | apply ext_np_loop | apply ext_ret | intros ?].
  Qed.
  Lemma starts_outer f solve data wgt p0 mask lo hi prel pabs cfg fo fi p chi lam ni ne :
    starts (put mask p0 p) (lm_outer f solve data wgt p0 mask lo hi prel pabs cfg (S fo) fi p chi lam ni ne).
  Proof.
    cbn [lm_outer]. apply starts_bind; [apply starts_both|]. intros fd. apply ext_bind; [apply ext_lift|]. intros dm. apply ext_bind; [apply ext_lift|]. intros wd.
    apply ext_bind; [destruct chi; repeat first [apply ext_bind | apply ext_lift | apply ext_ret | intros ?]|]. intros cc.
    do 4 (apply ext_bind; [apply ext_lift|]; intros ?). destruct (_ =? _)%K; [apply ext_ret|].
    apply ext_bind; [apply ext_lift|]. intros be. apply ext_bind; [apply ext_inner|]. intros [[[[? ?] ?] ?]|]; [|apply ext_ret].
    destruct (_ <=? _)%K; [apply ext_ret|]. destruct (_ <=? _)%Z; [apply ext_ret|apply ext_outer].
  Qed.

  (** ** specification *)
  (* a keyword that is neither one number nor one number per parameter *)
  Definition misfit (n : nat) (o : option (list K)) : Prop := match o with None => False | Some l => length l <> n /\ length l <> 1 end.
  Definition errs_fit (data : nd K) (kw : @lmkw K) : Prop := match k_errs kw with None => True | Some e => bshape (shp e) (shp data) <> None end.
  (* a python index of a parameter *)
  Definition pindex (n : nat) (i : Z) : Prop := (- Z.of_nat n <= i < Z.of_nat n)%Z.
  Definition pfix_fit (n : nat) (o : option (list Z)) : Prop := match o with None => True | Some l => l <> [] /\ Forall (pindex n) l end.

  Lemma bc_list_err n l : misfit n (Some l) <-> bc_list n l = Err (if (n =? 1)%nat then IndexError else ValueError).
  Proof.
    unfold misfit, bc_list. destruct (Nat.eqb_spec (length l) n) as [E|E]; [split; [tauto|discriminate]|].
    destruct l as [|x [|y l]]; cbn in *; split; auto; intros; try (split; auto; lia); [exfalso; lia|discriminate].
  Qed.
  Lemma bc_list_fit n l : ~ misfit n (Some l) -> exists l', bc_list n l = Ok l'.
  Proof.
    unfold misfit, bc_list. intros H. destruct (Nat.eqb_spec (length l) n) as [E|E]; [eauto|]. destruct l as [|x [|y l]]; cbn in *; eauto; exfalso; lia.
  Qed.
  Lemma bc_opt_err n o : misfit n o -> bc_opt n o = Err (if (n =? 1)%nat then IndexError else ValueError).
  Proof. destruct o as [l|]; [|intros []]. intros H. unfold bc_opt. rewrite (proj1 (bc_list_err n l) H). reflexivity. Qed.
  Lemma misfit_dec n o : {misfit n o} + {~ misfit n o}.
  Proof.
    destruct o as [l|]; cbn; [|tauto]. destruct (Nat.eq_dec (length l) n); [right; tauto|]. destruct (Nat.eq_dec (length l) 1); [right; tauto|left; auto].
  Qed.
  Lemma bc_opt_fit n o : ~ misfit n o -> exists o', bc_opt n o = Ok o'.
  Proof. destruct o as [l|]; [|cbn; eauto]. intros H. destruct (bc_list_fit n l H) as [l' E]. unfold bc_opt. rewrite E. cbn. eauto. Qed.
  Lemma def_fit n (o : option (list K)) d : ~ misfit n o -> exists l, bc_list n (match o with Some l => l | None => [d] end) = Ok l.
  Proof. intros H. apply bc_list_fit. destruct o as [l|]; [exact H|]. cbn. lia. Qed.
  Lemma def_err n (o : option (list K)) d : misfit n o -> bc_list n (match o with Some l => l | None => [d] end) = Err (if (n =? 1)%nat then IndexError else ValueError).
  Proof. destruct o as [l|]; [|intros []]. intros H. apply bc_list_err. exact H. Qed.
  Lemma py_index_iff n i : pindex n i <-> py_index n i <> None.
  Proof.
    unfold pindex, py_index. destruct (Z.ltb_spec i 0); [destruct (Z.ltb_spec (Z.of_nat n + i) 0)|destruct (Z.ltb_spec i (Z.of_nat n))]; split; intros; try congruence; try lia.
  Qed.
  Lemma clear_idx_spec n : forall l mask, (Forall (pindex n) l -> exists m, clear_idx n l mask = Ok m) /\ (~ Forall (pindex n) l -> clear_idx n l mask = Err IndexError).
  Proof.
    induction l as [|i l IH]; intros mask; cbn [clear_idx]; [split; [eauto|intros H; exfalso; apply H; constructor]|].
    destruct (py_index n i) as [k|] eqn:E.
    - assert (Hi : pindex n i) by (apply py_index_iff; congruence). split; intros H; [apply IH; inversion H; auto|]. apply IH. intros H'. apply H. constructor; auto.
    - split; [|auto]. intros H. exfalso. inversion H as [|? ? Hi]. apply py_index_iff in Hi. congruence.
  Qed.
  Lemma mask_spec n o : (pfix_fit n o -> exists m, mask_of n o = Ok m) /\ (~ pfix_fit n o -> mask_of n o = Err IndexError).
  Proof.
    unfold pfix_fit, mask_of. destruct o as [l|]; [|split; [eauto|tauto]]. destruct l as [|i l]; [split; [intros [H _]; congruence|auto]|].
    destruct (clear_idx_spec n (i :: l) (repeat true n)) as [A B]. split; [intros [_ H]; auto|]. intros H. apply B. intros H'. apply H. split; [discriminate|auto].
  Qed.
  Lemma errs_spec data kw : (errs_fit data kw -> exists e, errs_of data kw = Ok e) /\ (~ errs_fit data kw -> errs_of data kw = Err ValueError).
  Proof.
    unfold errs_fit, errs_of, nd_map2. destruct (k_errs kw) as [e|]; [|split; [eauto|tauto]]. cbn [shp full].
    destruct (bshape (shp e) (shp data)); split; intros H; eauto; [exfalso; apply H; discriminate|congruence].
  Qed.

  (* Arguments that do not fit are rejected before f is called at all; when everything fits, f is called first with p0.
     With a single parameter nothing is claimed about prel or pabs of a wrong length (see bc_list). *)
  Theorem C115_levmar : forall f solve inv fo fi cfg data (p0 : list K) kw,
    let n := length p0 in let out := levmar_run f solve inv fo fi cfg data p0 kw [] in
    let some_misfit := misfit n (k_pmin kw) \/ misfit n (k_pmax kw) \/ misfit n (k_prel kw) \/ misfit n (k_pabs kw) in
    (~ errs_fit data kw -> out = (Err ValueError, [])) /\
    (errs_fit data kw -> some_misfit -> (n = 1 -> ~ misfit n (k_prel kw) /\ ~ misfit n (k_pabs kw)) -> out = (Err (if (n =? 1)%nat then IndexError else ValueError), [])) /\
    (errs_fit data kw -> ~ some_misfit -> ~ pfix_fit n (k_pfix kw) -> out = (Err IndexError, [])) /\
    (errs_fit data kw -> ~ some_misfit -> pfix_fit n (k_pfix kw) -> fo <> 0 -> exists calls, snd out = p0 :: calls).
  Proof.
    intros f solve inv fo fi cfg data p0 kw n out some_misfit. destruct (errs_spec data kw) as [E1 E2]. destruct (mask_spec n (k_pfix kw)) as [M1 M2].
    assert (U : out = out) by reflexivity. unfold out at 2 in U. unfold levmar_run in U. fold n in U. fold (errs_of data kw) in U.
    split; [|split; [|split]].
    - intros H. rewrite (E2 H) in U. exact U.
    - intros H HM _. destruct (E1 H) as [errs Ee]. rewrite Ee in U. unfold sbind at 1, slift at 1 in U.
      destruct (misfit_dec n (k_pmin kw)) as [m|m]; [rewrite (bc_opt_err n _ m) in U; exact U|]. destruct (bc_opt_fit n _ m) as [? Q]. rewrite Q in U. unfold sbind at 1, slift at 1 in U.
      destruct (misfit_dec n (k_pmax kw)) as [m1|m1]; [rewrite (bc_opt_err n _ m1) in U; exact U|]. destruct (bc_opt_fit n _ m1) as [? Q1]. rewrite Q1 in U. unfold sbind at 1, slift at 1 in U.
      destruct (misfit_dec n (k_prel kw)) as [m2|m2]; [rewrite (def_err n _ (c_prel cfg) m2) in U; exact U|]. destruct (def_fit n _ (c_prel cfg) m2) as [? Q2]. rewrite Q2 in U. unfold sbind at 1, slift at 1 in U.
      destruct (misfit_dec n (k_pabs kw)) as [m3|m3]; [rewrite (def_err n _ (c_pabs cfg) m3) in U; exact U|]. exfalso. unfold some_misfit in HM. tauto.
    - intros H HM HP. assert (m : ~ misfit n (k_pmin kw)) by (unfold some_misfit in HM; tauto). assert (m1 : ~ misfit n (k_pmax kw)) by (unfold some_misfit in HM; tauto).
      assert (m2 : ~ misfit n (k_prel kw)) by (unfold some_misfit in HM; tauto). assert (m3 : ~ misfit n (k_pabs kw)) by (unfold some_misfit in HM; tauto).
      destruct (E1 H) as [errs Ee], (bc_opt_fit n _ m) as [? Q], (bc_opt_fit n _ m1) as [? Q1], (def_fit n _ (c_prel cfg) m2) as [? Q2], (def_fit n _ (c_pabs cfg) m3) as [? Q3].
      rewrite Ee, Q, Q1, Q2, Q3, (M2 HP) in U. exact U.
    - intros H HM HP Hf. assert (m : ~ misfit n (k_pmin kw)) by (unfold some_misfit in HM; tauto). assert (m1 : ~ misfit n (k_pmax kw)) by (unfold some_misfit in HM; tauto).
      assert (m2 : ~ misfit n (k_prel kw)) by (unfold some_misfit in HM; tauto). assert (m3 : ~ misfit n (k_pabs kw)) by (unfold some_misfit in HM; tauto).
      destruct (E1 H) as [errs Ee], (bc_opt_fit n _ m) as [lo Q], (bc_opt_fit n _ m1) as [hi Q1], (def_fit n _ (c_prel cfg) m2) as [pr Q2], (def_fit n _ (c_pabs cfg) m3) as [pa Q3].
      destruct (M1 HP) as [mask Q4]. rewrite Ee, Q, Q1, Q2, Q3, Q4 in U. rewrite U. unfold slift at 1 2 3 4 5 6, sbind at 1 2 3 4 5 6.
      destruct fo as [|fo]; [congruence|].
      destruct (mask_of_spec _ _ _ Q4) as [LM _]. match goal with |- exists c, snd (?k []) = _ => change (starts p0 k) end.
      rewrite <- (put_sel mask p0) at 1 by auto.
      apply starts_bind; [apply starts_outer|]. intros [o|]; [|apply ext_ret].
      repeat first [apply ext_bind | apply ext_lift | apply ext_ret | intros ?].
  Qed.

  (* A generator whose partial derivatives do not have one row per parameter fails in the
     first pass, after one call *)
  Theorem C115_partials : forall h solve inv fo fi cfg data (p0 : list K) kw y,
    let n := length p0 in
    errs_fit data kw -> ~ misfit n (k_pmin kw) -> ~ misfit n (k_pmax kw) -> ~ misfit n (k_prel kw) -> ~ misfit n (k_pabs kw) ->
    pfix_fit n (k_pfix kw) -> fo <> 0 ->
    fst (h 0 p0) = Ok y -> (forall d, snd (h 0 p0) = Ok d -> hd_error (shp d) <> Some n) ->
    levmar_run (LGen h) solve inv fo fi cfg data p0 kw [] = (Err (match snd (h 0 p0) with Err e => e | Ok _ => IndexError end), [p0]).
  Proof.
    intros h solve inv fo fi cfg data p0 kw y n H m m1 m2 m3 HP Hf Ey Hd.
    destruct (errs_spec data kw) as [E1 _]. destruct (mask_spec n (k_pfix kw)) as [M1 _].
    destruct (E1 H) as [errs Ee], (bc_opt_fit n _ m) as [lo Q], (bc_opt_fit n _ m1) as [hi Q1], (def_fit n _ (c_prel cfg) m2) as [pr Q2], (def_fit n _ (c_pabs cfg) m3) as [pa Q3].
    destruct (M1 HP) as [mask Q4]. destruct (mask_of_spec _ _ _ Q4) as [LM _].
    unfold levmar_run. fold n. fold (errs_of data kw). rewrite Ee, Q, Q1, Q2, Q3, Q4.
    destruct fo as [|fo]; [congruence|]. cbn [lm_outer]. unfold g_both, sbind, slift, call_gen, sret. rewrite (put_sel mask p0) by auto.
    cbn [length]. rewrite Ey. destruct (snd (h 0 p0)) as [d|e] eqn:Ed; [|reflexivity].
    assert (sel_rows mask d = Err IndexError) as ->; [|reflexivity].
    specialize (Hd d eq_refl). unfold sel_rows. destruct (shp d) as [|k r]; [reflexivity|]. cbn in Hd. rewrite LM.
    destruct (Nat.eqb_spec k n); [congruence|reflexivity].
  Qed.
End Args.

(* three parameters with two lower bounds; parameter 3 of three fixed *)
Example C115_case f solve inv : 
  levmar_run f solve inv 1 1 lm_default (vec 0%R [1%R]) [1; 2; 3]%R (LmKw None None (Some [0; 0]%R) None None None) [] = (Err ValueError, []) /\
  levmar_run f solve inv 1 1 lm_default (vec 0%R [1%R]) [1; 2; 3]%R (LmKw None (Some [3%Z]) None None None None) [] = (Err IndexError, []) /\
  (exists c, snd (levmar_run f solve inv 1 1 lm_default (vec 0%R [1%R]) [1; 2; 3]%R (LmKw None (Some [-1]%Z) (Some [0%R]) None None None) []) = [1; 2; 3]%R :: c).
Proof.
  split; [|split].
  - destruct (C115_levmar f solve inv 1 1 lm_default (vec 0%R [1%R]) [1; 2; 3]%R (LmKw None None (Some [0; 0]%R) None None None)) as (_ & H & _).
    apply H; [exact I|left; cbn; lia|discriminate].
  - destruct (C115_levmar f solve inv 1 1 lm_default (vec 0%R [1%R]) [1; 2; 3]%R (LmKw None (Some [3%Z]) None None None None)) as (_ & _ & H & _).
    apply H; [exact I|cbn; tauto|]. intros [_ F]. inversion F as [|? ? P]. unfold pindex in P. cbn in P. lia.
  - destruct (C115_levmar f solve inv 1 1 lm_default (vec 0%R [1%R]) [1; 2; 3]%R (LmKw None (Some [-1]%Z) (Some [0%R]) None None None)) as (_ & _ & _ & H).
    apply H; [exact I|cbn; lia| |lia]. split; [discriminate|]. constructor; [unfold pindex; cbn; lia|constructor].
Qed.

(* two rows of derivatives for three parameters *)
Example C115_partials_case solve inv :
  levmar_run (LGen (fun (_ : nat) (p : list R) => (Ok (full [4] 0%R), Ok (full [2; 4] 0%R)))) solve inv 1 1 lm_default (full [4] 1%R) [1; 2; 3]%R (LmKw None None None None None None) []
  = (Err IndexError, [[1; 2; 3]%R]).
Proof.
  rewrite (C115_partials _ solve inv 1 1 lm_default (full [4] 1%R) [1; 2; 3]%R (LmKw None None None None None None) (full [4] 0%R)); cbn; auto; try reflexivity.
  intros d E. injection E as <-. discriminate.
Qed.

Print Assumptions C115_levmar.
Print Assumptions C115_partials.
