(* C119: polyfun, polyddx and calls of piecewise polynomials with arrays. *)
From Coq Require Import List Arith ZArith Bool Lia Reals QArith.
From Verif Require Import Num PyBase NdArray NdLemmas Poly PwPoly PwBase PwArray.
Import ListNotations.
Local Open Scope nat_scope.

(* the coefficients c[:, j] of one polynomial *)
Definition column {K} (c : nd K) (j : list nat) : list K := map (fun i => get c (i :: j)) (seq 0 (hd 0 (shp c))).

Lemma inb_app i j s t : inb i s -> inb j t -> inb (i ++ j) (s ++ t).
Proof. apply Forall2_app. Qed.
Lemma bto_rev_app s t r : bto_rev s t = true -> bto_rev s (t ++ r) = true.
Proof.
  revert t. induction s as [|a s IH]; intros [|b t]; cbn; try (destruct r; auto; discriminate); auto.
  intros H. apply andb_prop in H as [H1 H2]. rewrite H1. cbn. auto.
Qed.
Lemma bto_cons s t d : bto s t = true -> bto s (d :: t) = true.
Proof. unfold bto. cbn. apply bto_rev_app. Qed.
Lemma bto_app s t : bto s (t ++ s) = true.
Proof. unfold bto. rewrite rev_app_distr. apply bto_rev_app, bto_rev_refl'. Qed.
Lemma bidx_cons s t idx k : bto s t = true -> inb idx t -> bidx s (k :: idx) = bidx s idx.
Proof.
  intros H Hi. apply bto_length in H. apply inb_length in Hi. unfold bidx. f_equal.
  cbn [length]. replace (S (length idx) - length s) with (S (length idx - length s)) by lia. reflexivity.
Qed.
Lemma bidx_self s idx : inb idx s -> bidx s idx = idx.
Proof.
  intros H. unfold bidx. rewrite (inb_length _ _ H), Nat.sub_diag. cbn [skipn]. induction H as [|i d idx s Hi H IH]; [reflexivity|].
  cbn. rewrite IH. destruct (Nat.eqb_spec d 1); [f_equal; lia|reflexivity].
Qed.
Lemma bidx_app s i j : inb j s -> bidx s (i ++ j) = j.
Proof.
  intros H. transitivity (bidx s j); [|apply bidx_self; auto]. unfold bidx. f_equal.
  rewrite app_length, (inb_length _ _ H), Nat.sub_diag. replace (length i + length s - length s) with (length i) by lia.
  rewrite skipn_app, skipn_all, Nat.sub_diag. reflexivity.
Qed.

Section Arr.
  Context {K : Type} {NK : Num K}.

  Lemma column_rev (c : nd K) m s j : shp c = S (S m) :: s ->
    rev (column c j) = get c (S m :: j) :: get c (m :: j) :: map (fun i => get c (i :: j)) (rev (seq 0 m)).
  Proof.
    intros H. unfold column. rewrite H. cbn [hd]. rewrite <- map_rev. replace (S (S m)) with (m + 2) by lia.
    rewrite seq_app, rev_app_distr. reflexivity.
  Qed.
  Lemma shp_take0 (c : nd K) n s i : shp c = n :: s -> shp (nd_take 0 i c) = s.
  Proof. unfold nd_take. cbn. intros ->. reflexivity. Qed.

  (* what _polysetup returns *)
  Lemma setup_ok (c x : nd K) n s u : shp c = S n :: s -> bshape s (shp x) = Some u ->
    exists p, polysetup_nd c x = Ok p /\ shp p = u /\
      forall idx, inb idx u -> get p idx = fst (polysetup (rev (column c (bidx s idx))) (bget x idx)).
  Proof.
    intros H Hb. destruct (bshape_bto _ _ _ Hb) as [B1 B2]. unfold polysetup_nd. rewrite H. destruct n as [|m].
    - unfold nd_map2, nd_map, bget. rewrite (shp_take0 c 1 s 0 H). cbn [shp get]. rewrite Hb. eexists. split; [reflexivity|].
      split; [reflexivity|]. intros idx Hi. cbn [get]. unfold column. rewrite H. reflexivity.
    - unfold nd_map2 at 1. rewrite (shp_take0 c _ s _ H), Hb. cbn [bind]. unfold nd_map2. rewrite (shp_take0 c _ s _ H). cbn [shp].
      assert (Bu : bshape s u = Some u).
      { pose proof (bshape_of_bto s u B1) as E. unfold bshape in *. rewrite <- E. f_equal. clear - NK.
        generalize (rev s) (rev u). intros a. induction a as [|d a IH]; intros [|e b]; cbn; auto. rewrite IH.
        unfold bdim. destruct (Nat.eqb_spec d e), (Nat.eqb_spec e d), (Nat.eqb_spec d 1), (Nat.eqb_spec e 1); subst; auto; try lia. }
      rewrite Bu. eexists. split; [reflexivity|]. split; [reflexivity|]. intros idx Hi. cbn [get]. rewrite (column_rev c m s _ H). cbn [polysetup fst].
      unfold bget. cbn [shp get]. rewrite !(shp_take0 c _ s _ H). rewrite (bidx_self u idx Hi). reflexivity.
  Qed.
  Lemma setup_none (c x : nd K) n s : shp c = S n :: s -> bshape s (shp x) = None -> polysetup_nd c x = Err ValueError.
  Proof.
    intros H Hb. unfold polysetup_nd. rewrite H. destruct n as [|m]; unfold nd_map2 at 1; rewrite (shp_take0 c _ s _ H); cbn [shp nd_map]; rewrite Hb; reflexivity.
  Qed.
  Lemma iop_ok f (a v : nd K) : bto (shp v) (shp a) = true -> nd_iop f a v = Ok (Nd (shp a) (fun idx => f (get a idx) (bget v idx))).
  Proof. unfold nd_iop. intros ->. reflexivity. Qed.

  Lemma polyfun_loop_ok (x : nd K) u l : forall rows p, shp p = u -> bto (shp x) u = true ->
    (forall r, In r rows -> bto (shp r) u = true) ->
    (forall idx, inb idx u -> map (fun r => bget r idx) rows = l idx) ->
    exists r, polyfun_loop rows x p = Ok r /\ shp r = u /\
      forall idx, inb idx u -> get r idx = fold_left (fun p cn => p * bget x idx + cn)%K (l idx) (get p idx).
  Proof.
    intros rows. revert l. induction rows as [|c rows IH]; intros l p Hp Bx Hr Hl.
    - exists p. split; [reflexivity|]. split; [exact Hp|]. intros idx Hi. rewrite <- (Hl idx Hi). reflexivity.
    - cbn [polyfun_loop]. rewrite iop_ok by (rewrite Hp; exact Bx). cbn [bind]. rewrite iop_ok by (cbn [shp]; rewrite Hp; apply Hr; left; reflexivity). cbn [bind shp].
      destruct (IH (fun idx => map (fun r => bget r idx) rows) (Nd (shp p) (fun idx => (get p idx * bget x idx + bget c idx)%K))) as (r & E & S & G); cbn [shp]; auto.
      + intros r Hin. apply Hr. right. exact Hin.
      + cbn [get] in *. exists r. split; [exact E|]. split; [exact S|]. intros idx Hi. rewrite (G idx Hi), <- (Hl idx Hi). reflexivity.
  Qed.
  Lemma setup_snd (c : nd K) n s j (x : K) : shp c = S n :: s ->
    snd (polysetup (rev (column c j)) x) = map (fun i => get c (i :: j)) (rev (seq 0 (S n - 2))).
  Proof.
    intros H. destruct n as [|m]; [unfold column; rewrite H; reflexivity|]. rewrite (column_rev c m s j H). cbn [polysetup snd]. do 3 f_equal. lia.
  Qed.
  Lemma column_cons (c : nd K) n s j : shp c = S n :: s -> exists a l, column c j = a :: l.
  Proof. intros H. unfold column. rewrite H. cbn. eauto. Qed.
  Lemma rows3_shp (c : nd K) n s r : shp c = n :: s -> In r (rows3 c) -> shp r = s.
  Proof. intros H Hr. unfold rows3 in Hr. apply in_map_iff in Hr as (i & <- & _). apply (shp_take0 c n s i H). Qed.
  Lemma rows3_vals (c : nd K) n s idx : shp c = n :: s ->
    map (fun r => bget r idx) (rows3 c) = map (fun i => get c (i :: bidx s idx)) (rev (seq 0 (n - 2))).
  Proof.
    intros H. unfold rows3. rewrite H. cbn [hd]. rewrite map_map. apply map_ext. intros i. unfold bget. rewrite (shp_take0 c n s i H). reflexivity.
  Qed.

  (** ** C119 *)
  (* polyfun of arrays: the coefficients c[:, ...] and x broadcast; without rows IndexError, shapes that do not fit ValueError *)
  Theorem C119_polyfun : forall c x : nd K,
    (forall n s u, shp c = S n :: s -> bshape s (shp x) = Some u ->
      exists r, polyfun_nd c x = Ok r /\ shp r = u /\
        forall idx, inb idx u -> polyfun (column c (bidx s idx)) (get x (bidx (shp x) idx)) = Ok (get r idx)) /\
    (forall n s, shp c = S n :: s -> bshape s (shp x) = None -> polyfun_nd c x = Err ValueError) /\
    (shp c = [] \/ hd 1 (shp c) = 0 -> polyfun_nd c x = Err IndexError).
  Proof.
    intros c x. split; [|split].
    - intros n s u H Hb. destruct (bshape_bto _ _ _ Hb) as [B1 B2]. destruct (setup_ok c x n s u H Hb) as (p & E & Sp & G). unfold polyfun_nd. rewrite E. cbn [bind].
      destruct (polyfun_loop_ok x u (fun idx => map (fun i => get c (i :: bidx s idx)) (rev (seq 0 (S n - 2)))) (rows3 c) p Sp B2) as (r & Er & Sr & Gr).
      + intros r Hr. rewrite (rows3_shp c _ s r H Hr). exact B1.
      + intros idx Hi. apply (rows3_vals c _ s idx H).
      + exists r. split; [exact Er|]. split; [exact Sr|]. intros idx Hi. destruct (column_cons c n s (bidx s idx) H) as (a & l & Ec).
        unfold polyfun. rewrite Ec, <- Ec. f_equal. rewrite (Gr idx Hi), (G idx Hi). unfold horner.
        pose proof (setup_snd c n s (bidx s idx) (bget x idx) H) as E2. unfold bget in *.
        destruct (polysetup (rev (column c (bidx s idx))) (get x (bidx (shp x) idx))) as [q t]. cbn [fst snd] in *. rewrite E2. reflexivity.
    - intros n s H Hb. unfold polyfun_nd. rewrite (setup_none c x n s H Hb). reflexivity.
    - intros H. unfold polyfun_nd, polysetup_nd. destruct (shp c) as [|[|n] s]; [reflexivity|reflexivity|]. destruct H as [H|H]; discriminate.
  Qed.

  (* the values p[:, idx] *)
  Definition lst (n : nat) (p : nd K) (idx : list nat) : list K := map (fun k => get p (k :: idx)) (seq 0 (S n)).
  Lemma lst_len n p idx : length (lst n p idx) = S n.
  Proof. unfold lst. rewrite map_length, seq_length. reflexivity. Qed.
  Lemma lst_nth n p idx k d : k < S n -> nth k (lst n p idx) d = get p (k :: idx).
  Proof.
    intros H. unfold lst. rewrite (nth_indep _ d (get p (0 :: idx))) by (rewrite map_length, seq_length; lia).
    rewrite (map_nth (fun k => get p (k :: idx))), seq_nth by lia. reflexivity.
  Qed.
  Lemma nth_zip {A B C} (f : A -> B -> C) l m k da db d : k < length l -> k < length m -> nth k (zipw f l m) d = f (nth k l da) (nth k m db).
  Proof. revert m k. induction l as [|a l IH]; intros [|b m] [|k]; cbn; intros; try lia; auto. apply IH; lia. Qed.
  Lemma zip_len {A B C} (f : A -> B -> C) l m : length (zipw f l m) = Nat.min (length l) (length m).
  Proof. revert m. induction l as [|a l IH]; intros [|b m]; cbn; auto. Qed.

  Lemma ddx_pass_ok n u (cn x p cns : nd K) : shp p = S n :: u -> shp cns = S n :: u -> bto (shp cn) u = true -> bto (shp x) u = true ->
    exists p' cns', ddx_pass n cn x p cns = Ok (p', cns') /\ shp p' = S n :: u /\ shp cns' = S n :: u /\
      forall idx, inb idx u -> lst n p' idx = ddx_step (bget x idx) (lst n p idx) (bget cn idx).
  Proof.
    intros Hp Hc Bc Bx. unfold ddx_pass. unfold nd_setitem at 1. rewrite Hc. cbn [remove_at]. rewrite Bc. cbn [bind].
    unfold nd_setslice. cbn [shp]. unfold nd_slice. cbn [shp]. rewrite Hp. cbn [upd]. rewrite bto_refl'. cbn [bind].
    rewrite iop_ok by (rewrite Hp; apply bto_cons; exact Bx). cbn [bind]. rewrite iop_ok by (cbn [shp]; rewrite Hp; apply bto_refl'). cbn [bind].
    do 2 eexists. split; [reflexivity|]. split; [exact Hp|]. split; [reflexivity|]. intros idx Hi.
    apply (nth_ext _ _ n0 n0).
    { unfold ddx_step. rewrite zip_len. cbn [length]. rewrite !lst_len. lia. }
    intros k Hk. rewrite lst_len in Hk. rewrite lst_nth by exact Hk. cbn [get].
    unfold ddx_step. rewrite (nth_zip _ _ _ _ n0 n0) by (cbn [length]; rewrite lst_len; lia). rewrite lst_nth by exact Hk.
    unfold bget at 1. rewrite (bidx_cons (shp x) u idx k Bx Hi). fold (bget x idx). f_equal.
    unfold bget at 1. cbn [shp get]. rewrite (bidx_self (S n :: u) (k :: idx)) by (constructor; [lia|exact Hi]). cbn [nth].
    destruct k as [|k].
    - cbn. reflexivity.
    - cbn [Nat.leb andb Nat.eqb nth]. replace (S k <? 1 + n) with true by (symmetry; apply Nat.ltb_lt; lia).
      cbn [upd]. unfold bget. cbn [shp get]. replace (S k - 1) with k by lia. rewrite (bidx_self (n :: u) (k :: idx)) by (constructor; [lia|exact Hi]).
      cbn [nth upd]. rewrite lst_nth by lia. reflexivity.
  Qed.
  Lemma polyddx_loop_ok n u (x : nd K) : forall rows p cns, shp p = S n :: u -> shp cns = S n :: u -> bto (shp x) u = true ->
    (forall r, In r rows -> bto (shp r) u = true) ->
    exists r, polyddx_loop n rows x p cns = Ok r /\ shp r = S n :: u /\
      forall idx, inb idx u -> lst n r idx = fold_left (ddx_step (bget x idx)) (map (fun r => bget r idx) rows) (lst n p idx).
  Proof.
    intros rows. induction rows as [|c rows IH]; intros p cns Hp Hc Bx Hr.
    - exists p. split; [reflexivity|]. split; [exact Hp|]. reflexivity.
    - cbn [polyddx_loop]. destruct (ddx_pass_ok n u c x p cns Hp Hc (Hr c (or_introl eq_refl)) Bx) as (p' & cns' & E & Hp' & Hc' & G). rewrite E. cbn [bind].
      destruct (IH p' cns' Hp' Hc' Bx) as (r & Er & Sr & Gr); [intros r Hin; apply Hr; right; exact Hin|].
      exists r. split; [exact Er|]. split; [exact Sr|]. intros idx Hi. rewrite (Gr idx Hi), (G idx Hi). reflexivity.
  Qed.
  Lemma fold_ddx_len x l : forall p : list K, length (fold_left (ddx_step x) l p) = length p.
  Proof. induction l as [|a l IH]; intros p; [reflexivity|]. cbn. rewrite IH. unfold ddx_step. rewrite zip_len. cbn [length]. lia. Qed.
  Lemma denorm_nth (l : list K) k d : k < length l -> nth k (denorm l) d = match k with O => nth k l d | _ => (nth k l d * cfact k)%K end.
  Proof.
    destruct l as [|a l]; cbn [length]; [lia|]. intros H. destruct k as [|k]; [reflexivity|]. cbn [denorm nth].
    rewrite (nth_zip _ _ _ _ d O) by (rewrite ?seq_length; lia). rewrite seq_nth by lia. reflexivity.
  Qed.
  Lemma column_len (c : nd K) j : length (column c j) = hd 0 (shp c).
  Proof. unfold column. rewrite map_length, seq_length. reflexivity. Qed.
  Lemma column_last (c : nd K) n s j : shp c = S n :: s -> last (column c j) n0 = get c (n :: j).
  Proof. intros H. unfold column. rewrite H. cbn [hd]. replace (S n) with (n + 1) by lia. rewrite seq_app, map_app. cbn [seq map Nat.add]. apply last_last. Qed.
  Lemma map_const_repeat (k a : nat) (v : K) : map (fun _ => v) (seq a k) = repeat v k.
  Proof. revert a. induction k as [|k IH]; intros a; [reflexivity|]. cbn. rewrite IH. reflexivity. Qed.

  Theorem C119_polyddx : forall (c x : nd K) (nd_ : option nat) (norm : bool),
    let N := match nd_ with Some m => m | None => hd 0 (shp c) - 1 end in
    (forall n s u, shp c = S n :: s -> bshape s (shp x) = Some u ->
      exists r, polyddx_nd c x nd_ norm = Ok r /\ shp r = S N :: u /\
        forall idx, inb idx u -> exists l, polyddx (column c (bidx s idx)) (get x (bidx (shp x) idx)) nd_ norm = Ok l /\
          length l = S N /\ forall k d, k <= N -> nth k l d = get r (k :: idx)) /\
    (forall n s, shp c = S n :: s -> bshape s (shp x) = None -> polyddx_nd c x nd_ norm = Err ValueError) /\
    (shp c = [] \/ hd 1 (shp c) = 0 -> polyddx_nd c x nd_ norm = Err IndexError).
  Proof.
    intros c x nd_ norm N. split; [|split].
    - intros n s u H Hb. destruct (bshape_bto _ _ _ Hb) as [B1 B2]. destruct (setup_ok c x n s u H Hb) as (p & E & Sp & G). unfold polyddx_nd. rewrite E. cbn [bind]. fold N.
      set (p1 := Nd (S N :: shp p) _).
      assert (exists p2, match N with O => Ok p1 | S _ => nd_setitem 0 1 (nd_take 0 (hd 0 (shp c) - 1) c) p1 end = Ok p2 /\ shp p2 = S N :: u /\
        forall idx, inb idx u -> lst N p2 idx = get p idx :: match N with O => [] | S m => get c (n :: bidx s idx) :: repeat n0 m end) as (p2 & E2 & S2 & G2).
      { unfold p1. clearbody N. rewrite Sp. destruct N as [|m].
        - eexists. split; [reflexivity|]. split; [reflexivity|]. intros idx Hi. reflexivity.
        - unfold nd_setitem. cbn [shp remove_at]. rewrite (shp_take0 c _ s _ H), B1. eexists. split; [reflexivity|]. split; [reflexivity|]. intros idx Hi.
          unfold lst. cbn [seq map get nth Nat.eqb remove_at]. f_equal. rewrite H. cbn [hd].
          unfold bget. rewrite (shp_take0 c _ s _ H). cbn [nd_take get insert_at]. replace (S n - 1) with n by lia. f_equal.
          rewrite <- (map_const_repeat m 2). apply map_ext_in. intros k Hk. apply in_seq in Hk. destruct k as [|[|k]]; [lia|lia|]. reflexivity. }
      rewrite E2. cbn [bind]. rewrite S2.
      destruct (polyddx_loop_ok N u x (rows3 c) p2 (full (S N :: u) n0) S2 eq_refl B2) as (r & Er & Sr & Gr).
      { intros r Hr. rewrite (rows3_shp c _ s r H Hr). exact B1. }
      rewrite Er. cbn [bind]. eexists. split; [reflexivity|]. split; [destruct norm; [cbn [shp]|]; exact Sr|].
      intros idx Hi. destruct (column_cons c n s (bidx s idx) H) as (a & l & Ec). unfold polyddx. rewrite Ec, <- Ec, column_len. fold N.
      assert (ET : taylor (column c (bidx s idx)) (get x (bidx (shp x) idx)) N = lst N r idx).
      { rewrite (Gr idx Hi), (G2 idx Hi), (rows3_vals c _ s idx H), (G idx Hi). unfold taylor.
        pose proof (setup_snd c n s (bidx s idx) (bget x idx) H) as E3. unfold bget in *.
        destruct (polysetup (rev (column c (bidx s idx))) (get x (bidx (shp x) idx))) as [q t]. cbn [fst snd] in *. rewrite E3, (column_last c n s _ H). reflexivity. }
      rewrite ET. eexists. split; [reflexivity|]. destruct norm.
      + split.
        * unfold denorm. pose proof (lst_len N r idx) as L. destruct (lst N r idx) as [|b t]; [discriminate|]. cbn [length] in *. rewrite zip_len, seq_length. lia.
        * intros k d Hk. rewrite denorm_nth by (rewrite lst_len; lia). cbn [get hd]. rewrite lst_nth by lia. destruct k; reflexivity.
      + split; [apply lst_len|]. intros k d Hk. apply lst_nth. lia.
    - intros n s H Hb. unfold polyddx_nd. rewrite (setup_none c x n s H Hb). reflexivity.
    - intros H. unfold polyddx_nd, polysetup_nd. destruct (shp c) as [|[|n] s]; [reflexivity|reflexivity|]. destruct H as [H|H]; discriminate.
  Qed.

  (* a piecewise polynomial as the constructors make it: one column of cn > 0 coefficients for every component and
     interval, one entry of xk0 per interval, and for PerPwPoly a knot and a period *)
  Record shaped (p : @pwpoly K) : Prop := {
    sh_n : 0 < cn (pc p);
    sh_k : length (pxk0 p) = ck (pc p);
    sh_pos : 0 < ck (pc p);
    sh_col : forall comp i, inb comp (csh (pc p)) -> i < ck (pc p) -> length (ccol (pc p) comp i) = cn (pc p);
    sh_per : pcl p = Per -> pxk p <> [] /\ exists T, pper p = Some T }.
  Lemma shaped_ok p : shaped p -> pw_ok p = Ok tt.
  Proof.
    intros [H1 H2 H3 _ H5]. unfold pw_ok. rewrite H2, Nat.eqb_refl. destruct (Nat.eqb_spec (cn (pc p)) 0); [lia|]. destruct (Nat.eqb_spec (ck (pc p)) 0); [lia|].
    cbn. destruct (pcl p); [reflexivity|]. destruct (H5 eq_refl) as (_ & T & ->). reflexivity.
  Qed.
  Lemma ssearch_le (l : list K) x : ssearch l x <= length l.
  Proof. induction l as [|a l IH]; cbn; [lia|]. destruct (a <? x)%K; lia. Qed.
  Lemma ssearch_lt p x : shaped p -> ssearch (pxk p) x < ck (pc p).
  Proof. intros [_ H2 H3 _ _]. pose proof (ssearch_le (pxk p) x). unfold pxk in *. destruct (pxk0 p); cbn in *; lia. Qed.
  Lemma all_below_ok f (x : nd K) n : (forall v, f v < n) -> all_below (nd_map f x) n = true.
  Proof. intros H. unfold all_below. apply forallb_forall. intros k _. apply Nat.ltb_lt. apply H. Qed.
  Lemma firstn_comp (j : nat) comp (idx s : list nat) m : inb comp s -> m = S (length s) -> firstn m (j :: comp ++ idx) = j :: comp.
  Proof. intros H ->. cbn [firstn]. rewrite <- (inb_length _ _ H), firstn_app, firstn_all, Nat.sub_diag. cbn. rewrite app_nil_r. reflexivity. Qed.
  Lemma skipn_comp (j : nat) comp (idx s : list nat) m : inb comp s -> m = S (length s) -> skipn m (j :: comp ++ idx) = idx.
  Proof. intros H ->. cbn [skipn]. rewrite <- (inb_length _ _ H), skipn_app, skipn_all, Nat.sub_diag. reflexivity. Qed.

  (* the coefficients and arguments handed to polyfun and polyddx *)
  Lemma eval_setup p (x : nd K) n : shaped p ->
    exists c y, pw_eval_arr p x n = match n with O => polyfun_nd c y | S _ => polyddx_nd c y (Some n) true end /\
      shp c = cn (pc p) :: pshape p ++ shp x /\ shp y = shp x /\
      forall comp idx, inb comp (pshape p) -> inb idx (shp x) ->
        let ix := ssearch (pxk p) (get x idx) in
        column c (comp ++ idx) = ccol (pc p) comp ix /\ get y idx = (get x idx - nth ix (pxk0 p) n0)%K.
  Proof.
    intros W. unfold pw_eval_arr, take_last at 1. cbn [shp vec last].
    rewrite all_below_ok by (intros v; rewrite (sh_k p W); apply ssearch_lt; auto). cbn [bind removelast app length].
    rewrite iop_ok by apply bto_refl'. cbn [bind]. unfold take_last.
    assert (EL : last (shp (c_nd (pc p))) 0 = ck (pc p)) by (cbn [shp c_nd]; rewrite app_comm_cons; apply last_last).
    rewrite EL, all_below_ok by (intros v; apply ssearch_lt; auto). cbn [bind]. do 2 eexists. split; [reflexivity|].
    assert (ER : removelast (shp (c_nd (pc p))) = cn (pc p) :: pshape p) by (cbn [shp c_nd]; rewrite app_comm_cons; apply removelast_last).
    assert (LS : length (shp (c_nd (pc p))) - 1 = S (length (pshape p))) by (cbn [shp c_nd length]; rewrite app_length; unfold pshape; cbn [length]; lia).
    split; [cbn [shp]; rewrite ER; reflexivity|]. split; [reflexivity|]. intros comp idx Hc Hi. cbv zeta.
    set (ix := ssearch (pxk p) (get x idx)). split.
    - pose proof (sh_col p W comp ix Hc (ssearch_lt p _ W)) as L. unfold column. cbn [shp]. rewrite ER. cbn [app hd]. rewrite <- L.
      apply (nth_ext _ _ n0 n0); [rewrite map_length, seq_length; reflexivity|]. intros k Hk. rewrite map_length, seq_length in Hk.
      match goal with |- nth k (map ?f _) _ = _ => rewrite (nth_indep _ n0 (f O)) by (rewrite map_length, seq_length; lia); rewrite (map_nth f) end.
      rewrite seq_nth by lia. cbn [Nat.add]. cbn [get]. rewrite LS.
      rewrite (firstn_comp k comp idx (pshape p) _ Hc eq_refl), (skipn_comp k comp idx (pshape p) _ Hc eq_refl). cbn [get nd_map c_nd]. fold ix.
      change ((k :: comp) ++ [ix]) with (k :: (comp ++ [ix])). cbn [hd tl]. rewrite removelast_last.
      replace (last (k :: comp ++ [ix]) 0) with ix by (change (k :: comp ++ [ix]) with ((k :: comp) ++ [ix]); rewrite last_last; reflexivity). reflexivity.
    - cbn [get]. f_equal. unfold bget. cbn [shp get nd_map]. rewrite (bidx_self _ idx Hi). cbn [Nat.sub firstn skipn app hd]. reflexivity.
  Qed.

  (* p(x) and p(x, nd) of an array x: the axes of p, then those of x; every entry is the value (the k-th derivative)
     of its component at its point *)
  Lemma eval_ok p (x : nd K) : shaped p ->
    exists r, pw_eval_arr p x 0 = Ok r /\ shp r = pshape p ++ shp x /\
      forall comp idx, inb comp (pshape p) -> inb idx (shp x) ->
        let ix := ssearch (pxk p) (get x idx) in get r (comp ++ idx) = horner (ccol (pc p) comp ix) (get x idx - nth ix (pxk0 p) n0)%K.
  Proof.
    intros W. destruct (eval_setup p x 0 W) as (c & y & E & Sc & Sy & G). pose proof (sh_n p W). destruct (cn (pc p)) as [|n] eqn:En; [lia|].
    destruct (proj1 (C119_polyfun c y) n _ (pshape p ++ shp x) Sc) as (r & Er & Sr & Gr); [rewrite Sy; apply bshape_of_bto, bto_app|].
    exists r. split; [rewrite E; exact Er|]. split; [exact Sr|]. intros comp idx Hc Hi. cbv zeta. destruct (G comp idx Hc Hi) as [G1 G2].
    specialize (Gr (comp ++ idx) (inb_app _ _ _ _ Hc Hi)). rewrite Sy, (bidx_app (shp x) comp idx Hi), bidx_self, G1, G2 in Gr by (apply inb_app; auto).
    unfold polyfun in Gr. destruct (ccol (pc p) comp (ssearch (pxk p) (get x idx))); [discriminate|]. injection Gr as <-. reflexivity.
  Qed.
  Lemma evaln_ok p (x : nd K) N : shaped p ->
    exists r, pw_eval_arr p x (S N) = Ok r /\ shp r = S (S N) :: pshape p ++ shp x /\
      forall comp idx k d, inb comp (pshape p) -> inb idx (shp x) -> k <= S N ->
        let ix := ssearch (pxk p) (get x idx) in nth k (denorm (taylor (ccol (pc p) comp ix) (get x idx - nth ix (pxk0 p) n0)%K (S N))) d = get r (k :: comp ++ idx).
  Proof.
    intros W. destruct (eval_setup p x (S N) W) as (c & y & E & Sc & Sy & G). pose proof (sh_n p W). destruct (cn (pc p)) as [|n] eqn:En; [lia|].
    destruct (proj1 (C119_polyddx c y (Some (S N)) true) n _ (pshape p ++ shp x) Sc) as (r & Er & Sr & Gr); [rewrite Sy; apply bshape_of_bto, bto_app|].
    exists r. split; [rewrite E; exact Er|]. split; [exact Sr|]. intros comp idx k d Hc Hi Hk. cbv zeta. destruct (G comp idx Hc Hi) as [G1 G2].
    destruct (Gr (comp ++ idx) (inb_app _ _ _ _ Hc Hi)) as (l & El & Ll & Gl). rewrite Sy, (bidx_app (shp x) comp idx Hi), bidx_self, G1, G2 in El by (apply inb_app; auto).
    rewrite <- (Gl k d Hk). unfold polyddx in El. destruct (ccol (pc p) comp (ssearch (pxk p) (get x idx))); [discriminate|]. injection El as <-. reflexivity.
  Qed.
  Lemma call_arr_red p (x : nd K) n : shaped p -> pw_call_arr p x n = pw_eval_arr p (nd_map (pw_reduce p) x) n.
  Proof.
    intros W. unfold pw_call_arr, pw_reduce. destruct (pcl p) eqn:E.
    - destruct x. reflexivity.
    - destruct (sh_per p W E) as (H & T & ->). destruct (pxk p) as [|x0 l] eqn:Ek; [congruence|]. reflexivity.
  Qed.
  Theorem C119_call : forall (p : @pwpoly K) (x : nd K), shaped p ->
    (exists r, pw_call_arr p x 0 = Ok r /\ shp r = pshape p ++ shp x /\
      forall comp idx, inb comp (pshape p) -> inb idx (shp x) -> pw_call p comp (get x idx) = Ok (get r (comp ++ idx))) /\
    forall n, exists r, pw_call_arr p x (S n) = Ok r /\ shp r = S (S n) :: pshape p ++ shp x /\
      forall comp idx, inb comp (pshape p) -> inb idx (shp x) ->
        exists l, pw_calln p comp (get x idx) (S n) = Ok l /\ forall k d, k <= S n -> nth k l d = get r (k :: comp ++ idx).
  Proof.
    intros p x W. split.
    - destruct (eval_ok p (nd_map (pw_reduce p) x) W) as (r & E & S & G). exists r. split; [rewrite call_arr_red by auto; exact E|]. split; [exact S|].
      intros comp idx Hc Hi. unfold pw_call. rewrite shaped_ok by auto. cbn [bind]. f_equal. symmetry. apply (G comp idx Hc Hi).
    - intros n. destruct (evaln_ok p (nd_map (pw_reduce p) x) n W) as (r & E & S & G). exists r. split; [rewrite call_arr_red by auto; exact E|]. split; [exact S|].
      intros comp idx Hc Hi. unfold pw_calln. rewrite shaped_ok by auto. cbn [bind]. eexists. split; [reflexivity|]. intros k d Hk. apply (G comp idx k d Hc Hi Hk).
  Qed.
  (* objects the constructors do not make: an x beyond the columns of c raises IndexError, as does any x without xk0; a
     PerPwPoly without knots raises IndexError, one without period (after unpickling) AttributeError *)
  Lemma all_below_no (ix : nd nat) n idx : inb idx (shp ix) -> n <= get ix idx -> all_below ix n = false.
  Proof.
    intros Hi H. apply Bool.not_true_iff_false. intros E. unfold all_below in E. rewrite forallb_forall in E.
    specialize (E (ravel (shp ix) idx)). rewrite unravel_ravel in E by exact Hi. apply Nat.ltb_lt in E; [lia|].
    apply in_seq. pose proof (ravel_lt _ _ Hi). lia.
  Qed.
  Theorem C119_call_errors : forall (p : @pwpoly K) (x : nd K) n,
    (pcl p = Pw -> (exists idx, inb idx (shp x) /\ (pxk0 p = [] \/ ck (pc p) <= ssearch (pxk p) (get x idx))) -> pw_call_arr p x n = Err IndexError) /\
    (pcl p = Per -> pxk p = [] -> pw_call_arr p x n = Err IndexError) /\
    (pcl p = Per -> pxk p <> [] -> pper p = None -> pw_call_arr p x n = Err AttributeError).
  Proof.
    intros p x n. split; [|split].
    - intros E (idx & Hi & H). unfold pw_call_arr. rewrite E. unfold pw_eval_arr, take_last at 1. cbn [shp vec last].
      destruct (all_below (nd_map (ssearch (pxk p)) x) (length (pxk0 p))) eqn:A; [|reflexivity]. cbn [bind].
      destruct H as [H|H]; [rewrite H in A; rewrite (all_below_no _ 0 idx) in A; [discriminate|exact Hi|lia]|].
      rewrite iop_ok by apply bto_refl'. cbn [bind]. unfold take_last.
      replace (last (shp (c_nd (pc p))) 0) with (ck (pc p)) by (cbn [shp c_nd]; rewrite app_comm_cons, last_last; reflexivity).
      rewrite (all_below_no _ _ idx); [reflexivity|exact Hi|exact H].
    - intros E H. unfold pw_call_arr. rewrite E, H. reflexivity.
    - intros E H T. unfold pw_call_arr. rewrite E, T. destruct (pxk p); [congruence|reflexivity].
  Qed.
End Arr.

(* every well formed piecewise polynomial is shaped *)
Lemma shaped_wf p : pw_wf p -> shaped p.
Proof.
  intros W. split.
  - destruct (wf_c p W). lia.
  - apply (wf_len p W).
  - rewrite <- (wf_len p W). pose proof (wf_nk p W). unfold pxk in *. destruct (pxk0 p); cbn in *; lia.
  - apply (cwf_col _ (wf_c p W)).
  - intros E. destruct (wf_per p W E) as (H & T & _). split; [destruct (pxk p); [cbn in H; lia|discriminate]|eauto].
Qed.

(** ** concrete cases *)
Definition show (r : res (nd Q)) : option (list nat * list Q) :=
  match r with Ok a => Some (shp a, map (fun k => Qred (get a (unravel (shp a) k))) (seq 0 (size (shp a)))) | Err _ => None end.
(* the polynomials 0 + 2x and 1 + 3x at the column 0, 1, 2 *)
Definition ex_c : nd Q := Nd [2; 2] (fun idx => nth (ravel [2; 2] idx) [0; 1; 2; 3]%Q 0%Q).
Definition ex_x : nd Q := Nd [3; 1] (fun idx => nth (ravel [3; 1] idx) [0; 1; 2]%Q 0%Q).
Example C119_polyfun_case : show (polyfun_nd ex_c ex_x) = Some ([3; 2], [0; 1; 2; 4; 4; 7]%Q).
Proof. vm_compute. reflexivity. Qed.
Example C119_polyddx_case : show (polyddx_nd ex_c ex_x None false) = Some ([2; 3; 2], [0; 1; 2; 4; 4; 7; 2; 3; 2; 3; 2; 3]%Q).
Proof. vm_compute. reflexivity. Qed.
Example C119_misfit_case : polyfun_nd ex_c (Nd [3] (fun _ => 0%Q)) = Err ValueError /\ polyfun_nd (scalar 1%Q) ex_x = Err IndexError.
Proof. split; reflexivity. Qed.
(* two components with the knots 0 and 1: (0, 1) below 0, (x^2, 1) on (0, 1], (2x-1, 2) beyond, written at the knots *)
Definition ex_two : @pwpoly Q := PwP Pw [0; 0; 1]%Q (CArr 3 [2] 3 (fun comp i =>
  match comp, i with
  | [0], 0 => [0; 0; 0]%Q | [0], 1 => [0; 0; 1]%Q | [0], _ => [1; 2; 0]%Q
  | _, 2 => [2; 0; 0]%Q | _, _ => [1; 0; 0]%Q
  end)) None.
Example ex_two_shaped : shaped ex_two.
Proof.
  split; cbn; try lia; try discriminate. intros comp i Hc Hi. inversion Hc as [|c0 d comp' s Hlt Hn]; subst. inversion Hn; subst.
  destruct c0 as [|[|c0]]; [| |lia]; destruct i as [|[|[|i]]]; cbn; auto; lia.
Qed.
Example C119_call_case :
  show (pw_call_arr ex_two (Nd [2; 2] (fun idx => nth (ravel [2; 2] idx) [-1; 1 # 2; 1; 3]%Q 0%Q)) 0) = Some ([2; 2; 2], [0; 1 # 4; 1; 5; 1; 1; 1; 2]%Q) /\
  show (pw_call_arr ex_two (scalar (1 # 2)%Q) 2) = Some ([3; 2], [1 # 4; 1; 1; 0; 2; 0]%Q).
Proof. vm_compute. split; reflexivity. Qed.

Print Assumptions C119_polyfun.
Print Assumptions C119_polyddx.
Example C119_call_errors_case : pw_call_arr (PwP Per [0; 0; 1]%Q (pc ex_two) None) ex_x 1 = Err AttributeError /\
  pw_call_arr (PwP Pw [0; 0; 1; 2]%Q (pc ex_two) None) (scalar 3%Q) 0 = Err IndexError.
Proof.
  split; [apply (proj2 (proj2 (C119_call_errors (PwP Per [0; 0; 1]%Q (pc ex_two) None) ex_x 1))); [reflexivity|discriminate|reflexivity]|].
  apply (proj1 (C119_call_errors (PwP Pw [0; 0; 1; 2]%Q (pc ex_two) None) (scalar 3%Q) 0) eq_refl). exists []. split; [constructor|]. right. vm_compute. lia.
Qed.

Print Assumptions C119_call.
Print Assumptions C119_call_errors.
