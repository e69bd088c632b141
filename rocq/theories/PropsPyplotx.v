(* C80, C87, C88, C89: logxy, xylim, title, style_npp, CBQ and the pyplot wrappers. *)
From Coq Require Import String Ascii List Arith ZArith QArith Bool Lia Permutation.
From Verif Require Import PyBase ItemAttr PropsItemAttr Pyplotx.
Import ListNotations.
Local Open Scope string_scope.

(** ** Spec *)
(* pyplot calls made one after the other, up to the first one that raises; the value is
   None *)
Definition pcall := (string * list pyv * dict pyv)%type.
Fixpoint run {S} (pyplot : string -> option (pfun S)) (l : list pcall) (s : S) : res pyv * S :=
  match l with
  | [] => (Ok PNone, s)
  | (nm, pos, kw) :: r =>
    match pyplot nm with
    | None => (Err AttributeError, s)
    | Some f => match f pos kw s with (Ok _, s') => run pyplot r s' | (Err e, s') => (Err e, s') end
    end
  end.
(* the truth value of Python objects: None, the empty string, 0 and the empty tuple are false, other strings, numbers, tuples and Ellipsis
   true; an object says it itself *)
Inductive bool_of : pyv -> bool -> Prop :=
| bool_none : bool_of PNone false
| bool_ellipsis : bool_of PEllipsis true
| bool_str0 : bool_of (PStr "") false
| bool_str s : s <> "" -> bool_of (PStr s) true
| bool_num0 q : (q == 0)%Q -> bool_of (PNum q) false
| bool_num q : ~ (q == 0)%Q -> bool_of (PNum q) true
| bool_tuple0 : bool_of (PTuple []) false
| bool_tuple x l : bool_of (PTuple (x :: l)) true
| bool_obj i b : bool_of (PObj i (Ok b)) b.
(* what an argument of logxy asks for: nothing, or a log (true) or linear scale *)
Inductive asks : pyv -> option bool -> Prop :=
| asks_none : asks PNone None
| asks_val v b : v <> PNone -> bool_of v b -> asks v (Some b).
Definition scale_call (axis : string) (r : option bool) : list pcall :=
  match r with
  | None => []
  | Some true => [(axis, [PStr "log"], [])]
  | Some false => [(axis, [PStr "linear"], [])]
  end.

(** ** Lemmas *)
Lemma truth_bool_of v b : truth v = Ok b <-> bool_of v b.
Proof.
  split.
  - destruct v as [| |s|q|l|i [c|e]]; cbn [truth]; intros H; inversion H; subst; try constructor.
    + destruct (String.eqb_spec s ""); [subst; constructor|now constructor].
    + destruct (Qeq_bool q 0) eqn:E; [constructor; now apply Qeq_bool_iff|constructor; intros Hq; apply Qeq_bool_iff in Hq; congruence].
    + destruct l; constructor.
  - intros []; cbn [truth]; try reflexivity.
    + destruct (String.eqb_spec s ""); [contradiction|reflexivity].
    + apply Qeq_bool_iff in H as ->. reflexivity.
    + destruct (Qeq_bool q 0) eqn:E; [apply Qeq_bool_iff in E; contradiction|reflexivity].
Qed.
Lemma run_app {S} (pp : string -> option (pfun S)) l1 l2 s :
  run pp (l1 ++ l2) s = match run pp l1 s with (Ok _, s') => run pp l2 s' | (Err e, s') => (Err e, s') end.
Proof.
  revert s; induction l1 as [|[[nm pos] kw] l1 IH]; intros s; cbn; [reflexivity|].
  destruct (pp nm) as [f|]; [|reflexivity]. destruct (f pos kw s) as [[v|e] s']; [apply IH|reflexivity].
Qed.
Lemma run_value {S} (pp : string -> option (pfun S)) l s v s' : run pp l s = (Ok v, s') -> v = PNone.
Proof.
  revert s; induction l as [|[[nm pos] kw] l IH]; intros s; cbn; [congruence|].
  destruct (pp nm) as [f|]; [|discriminate]. destruct (f pos kw s) as [[w|e] s1]; [apply IH|discriminate].
Qed.
Lemma set_scale_run {S} (pp : string -> option (pfun S)) nm v r s B (k : S -> res B * S) : asks v r ->
  andthen (set_scale pp nm v s) k = andthen (run pp (scale_call nm r) s) k.
Proof.
  intros H. destruct H as [|v b N T]; [reflexivity|]. apply truth_bool_of in T.
  unfold set_scale, scale_name. assert (is_none v = false) as -> by (destruct v; try reflexivity; congruence). rewrite T. cbn [rmap].
  unfold call. destruct b; cbn [scale_call run]; destruct (pp nm) as [f|]; auto;
  destruct (f _ _ s) as [[w|e] s']; reflexivity.
Qed.

(** ** C80 *)
Section C80.
Context {S : Type}.
Variable pyplot : string -> option (pfun S).
Theorem C80_logxy : forall islog islogy xr yr s, asks islog xr ->
  (islogy = PEllipsis -> yr = xr) -> (islogy <> PEllipsis -> asks islogy yr) ->
  logxy pyplot islog islogy s = run pyplot (scale_call "xscale" xr ++ scale_call "yscale" yr) s.
Proof.
  intros islog islogy xr yr s Hx He Hy. unfold logxy. rewrite (set_scale_run _ _ _ xr) by auto.
  assert (A : asks (if is_ellipsis islogy then islog else islogy) yr).
  { destruct islogy; cbn [is_ellipsis]; try (apply Hy; discriminate). rewrite He; auto. }
  rewrite run_app. destruct (run pyplot (scale_call "xscale" xr) s) as [[v|e] s1]; [|reflexivity].
  cbn [andthen]. rewrite (set_scale_run _ _ _ yr) by auto.
  destruct (run pyplot (scale_call "yscale" yr) s1) as [[w|e] s2] eqn:R; [|reflexivity].
  cbn [andthen]. apply run_value in R. now subst.
Qed.
(* an axis that is not asked for is left as it is: whatever part of the state the other
   function does not touch *)
Theorem C80_only_requested : forall (V : Type) (view : S -> V) other,
  other = "xscale" \/ other = "yscale" ->
  (forall f pos kw s, pyplot other = Some f -> view (snd (f pos kw s)) = view s) ->
  forall islog islogy xr yr s, asks islog xr ->
  (islogy = PEllipsis -> yr = xr) -> (islogy <> PEllipsis -> asks islogy yr) ->
  (other = "xscale" -> yr = None) -> (other = "yscale" -> xr = None) ->
  view (snd (logxy pyplot islog islogy s)) = view s.
Proof.
  intros V view other Ho Hv islog islogy xr yr s Hx He Hy H1 H2. rewrite (C80_logxy _ _ xr yr) by auto.
  assert (G : forall r, view (snd (run pyplot (scale_call other r) s)) = view s).
  { intros r. destruct r as [[]|]; cbn [scale_call run]; auto; destruct (pyplot other) as [f|] eqn:F; auto;
    pose proof (Hv f) as Hf; [specialize (Hf [PStr "log"] [] s eq_refl) | specialize (Hf [PStr "linear"] [] s eq_refl)];
    destruct (f _ _ s) as [[w|e] s1]; auto. }
  destruct Ho as [E|E]; subst other.
  - rewrite (H1 eq_refl), app_nil_r. apply G.
  - rewrite (H2 eq_refl). apply G.
Qed.
(* an argument without a truth value: the exception comes before the call for its axis *)
Theorem C80_logxy_error : forall islog islogy e s, (exists i, islog = PObj i (Err e)) ->
  logxy pyplot islog islogy s = (Err e, s).
Proof.
  intros islog islogy e s [i ->]. reflexivity.
Qed.
Theorem C80_xylim : forall a b c d s,
  xylim pyplot a b c d s = run pyplot [("axis", [], [("xmin", a); ("xmax", b); ("ymin", c); ("ymax", d)])] s.
Proof.
  intros. unfold xylim, call. cbn [run]. destruct (pyplot "axis") as [f|]; reflexivity.
Qed.

(* title *)
Definition outward (rc : dict pyv) : Prop := dget rc "xtick.direction" = Ok (PStr "out").
(* the claim for the keywords kw: y=1.03 added exactly when y is not given and the
   ticks point outward, all others as they are *)
Definition title_as_stated rc s args (kw : dict pyv) st : Prop :=
  (dget kw "y" = Err KeyError -> outward rc ->
     title pyplot rc (s :: args) kw st = run pyplot [("title", s :: args, ("y", PNum (103 # 100)) :: kw)] st) /\
  ((exists v, dget kw "y" = Ok v) \/ ~ outward rc ->
     title pyplot rc (s :: args) kw st = run pyplot [("title", s :: args, kw)] st).
Lemma run1 nm pos kw st : andthen (call pyplot nm pos kw st) (fun st => (Ok PNone, st)) = run pyplot [(nm, pos, kw)] st.
Proof. unfold call. cbn [run]. destruct (pyplot nm) as [f|]; reflexivity. Qed.
Lemma kwpop_none kw k : dget kw k = Err KeyError -> kwpop kw k = kw.
Proof. intros H. unfold kwpop. now rewrite ddel_none. Qed.
(* The claim holds unless `ret` is among the keywords, or y=None is given while the
   ticks point outward. *)
Theorem C80_title_partial : forall rc s args kw st v,
  dget rc "xtick.direction" = Ok v ->
  dget kw "s" = Err KeyError -> dget kw "ret" = Err KeyError ->
  (dget kw "y" = Ok PNone -> ~ outward rc) ->
  title_as_stated rc s args kw st.
Proof.
  intros rc s args kw st v Hv Hs Hr Hy. unfold title_as_stated, title, bind_s. rewrite Hs, (kwpop_none kw "ret") by auto.
  unfold outward in *. rewrite Hv in *. cbn [rmap].
  destruct (dget_cases kw "y") as [Gy|[y Gy]]; unfold kwget; rewrite Gy; cbn [is_none].
  - split.
    + intros _ E. injection E as ->. cbn [pyv_is_str]. rewrite String.eqb_refl. apply run1.
    + intros [[w E]|N]; [congruence|]. assert (pyv_is_str v "out" = false) as ->; [|apply run1].
      destruct v; cbn [pyv_is_str]; auto. destruct (String.eqb_spec s0 "out"); congruence.
  - split; [congruence|]. intros _. destruct (is_none y) eqn:Ny; [|apply run1].
    destruct y; try discriminate. specialize (Hy Gy). assert (pyv_is_str v "out" = false) as ->; [|apply run1].
    destruct v; cbn [pyv_is_str]; auto. destruct (String.eqb_spec s0 "out"); congruence.
Qed.
(* y=None with outward ticks: TypeError, two values for y *)
Theorem C80_title_none : forall rc s args kw st,
  outward rc -> NoDup (map fst kw) -> dget kw "s" = Err KeyError -> dget kw "y" = Ok PNone ->
  title pyplot rc (s :: args) kw st = (Err TypeError, st).
Proof.
  intros rc s args kw st Ho ND Hs Hy. unfold title, bind_s, kwget. rewrite Hs, Hy. cbn [is_none]. rewrite Ho. cbn [rmap pyv_is_str].
  rewrite String.eqb_refl. assert (dget (kwpop kw "ret") "y" = Ok PNone) as ->; [|reflexivity].
  unfold kwpop. destruct (dget_cases kw "ret") as [G|[v G]]; [now rewrite ddel_none|].
  destruct (ddel_some _ _ _ ND G) as (d & E & _ & _ & Hd). rewrite E, Hd. exact Hy.
Qed.
(* the keyword ret is not forwarded *)
Theorem C80_title_ret : forall rc s args kw st r, NoDup (map fst kw) ->
  dget kw "s" = Err KeyError -> dget kw "ret" = Ok r ->
  exists kw', dget kw' "ret" = Err KeyError /\
    (forall k, k <> "ret" -> dget kw' k = dget kw k) /\
    title pyplot rc (s :: args) kw st = title pyplot rc (s :: args) kw' st.
Proof.
  intros rc s args kw st r ND Hs Hr. destruct (ddel_some _ _ _ ND Hr) as (d & E & _ & _ & Hd).
  exists d. assert (Hd' : forall k, k <> "ret" -> dget d k = dget kw k).
  { intros k Hk. rewrite Hd. destruct (String.eqb_spec "ret" k); congruence. }
  assert (Dr : dget d "ret" = Err KeyError) by (rewrite Hd; now rewrite String.eqb_refl).
  split; [exact Dr|]. split; [exact Hd'|]. unfold title, bind_s, kwget.
  rewrite !Hd' by discriminate. rewrite Hs. cbv beta iota zeta. rewrite (Hd' "y") by discriminate.
  unfold kwpop. rewrite E. rewrite (ddel_none d) by auto. reflexivity.
Qed.
End C80.
(* title never returns a value other than None, and passes on what plt.title raises *)
(* s has to be given, and only once; nothing is drawn otherwise *)
Theorem C80_title_binding : forall S (pp : string -> option (pfun S)) rc pos kw st,
  (pos = [] /\ dget kw "s" = Err KeyError) \/ (pos <> [] /\ exists v, dget kw "s" = Ok v) -> title pp rc pos kw st = (Err TypeError, st).
Proof.
  intros S pp rc pos kw st H. unfold title, bind_s. destruct H as [[-> ->]|[N [v ->]]]; [reflexivity|]. destruct pos; [congruence|reflexivity].
Qed.
(* title(s=..., ...) is title(..., ...) *)
Theorem C80_title_keyword : forall S (pp : string -> option (pfun S)) rc kw st v, NoDup (map fst kw) -> dget kw "s" = Ok v ->
  exists kw', (forall k, dget kw' k = if "s" =? k then Err KeyError else dget kw k) /\ ddel kw "s" = Ok kw' /\ title pp rc [] kw st = title pp rc [v] kw' st.
Proof.
  intros S pp rc kw st v ND Hv. destruct (ddel_some kw "s" v ND Hv) as (d' & Ed & _ & _ & Hd). exists d'. split; [exact Hd|]. split; [exact Ed|].
  unfold title, bind_s, kwpop at 1. rewrite Hv, Ed, (Hd "s"). reflexivity.
Qed.
Example ex_C80_keyword : title (fun _ => Some (fun pos kw (st : list pcall) => (Ok PNone, [("title", pos, kw)]))) [("xtick.direction", PStr "in")] [] [("size", PNum 3); ("s", PStr "b")] [] =
  (Ok PNone, [("title", [PStr "b"], [("size", PNum 3)])]).
Proof. reflexivity. Qed.
Example ex_C80_binding : title (fun _ => None) [] [PStr "a"] [("s", PStr "b")] tt = (Err TypeError, tt).
Proof. apply C80_title_binding. right. split; [discriminate|]. exists (PStr "b"). reflexivity. Qed.
Theorem C80_title_value : forall S (pp : string -> option (pfun S)) rc pos kw st v st',
  title pp rc pos kw st = (Ok v, st') -> v = PNone.
Proof.
  intros S pp rc pos kw st v st'. unfold title. destruct (bind_s pos kw) as [[[s args] kw']|e]; [|discriminate].
  destruct (if is_none (kwget kw' "y") then _ else _) as [b|e]; [|discriminate].
  destruct (if b then _ else _) as [k|e]; [|discriminate]. rewrite run1. apply run_value.
Qed.

(** concrete cases: the state is the list of the calls made *)
Definition rec_pp (nm : string) : option (pfun (list pcall)) :=
  if existsb (String.eqb nm) ["xscale"; "yscale"; "axis"; "title"; "plot"] then
    Some (fun pos kw s => (Ok (PObj 1 (Ok true)), (s ++ [(nm, pos, kw)])%list))
  else None.
Example ex_C80_logxy : logxy rec_pp (PObj 7 (Ok true)) PEllipsis [] =
    (Ok PNone, [("xscale", [PStr "log"], []); ("yscale", [PStr "log"], [])]) /\
  logxy rec_pp PNone (PObj 8 (Ok false)) [] = (Ok PNone, [("yscale", [PStr "linear"], [])]) /\
  logxy rec_pp (PObj 7 (Ok true)) PNone [] = (Ok PNone, [("xscale", [PStr "log"], [])]) /\
  logxy rec_pp PNone PEllipsis [] = (Ok PNone, []).
Proof. repeat split. Qed.
Definition ex_rc_out : dict pyv := [("xtick.direction", PStr "out")].
Definition ex_rc_in : dict pyv := [("xtick.direction", PStr "in")].
Example ex_C80_title : title rec_pp ex_rc_out [PStr "t"] [("size", PNum 3)] [] =
    (Ok PNone, [("title", [PStr "t"], [("y", PNum (103 # 100)); ("size", PNum 3)])]) /\
  title rec_pp ex_rc_in [PStr "t"] [("size", PNum 3)] [] = (Ok PNone, [("title", [PStr "t"], [("size", PNum 3)])]) /\
  title rec_pp ex_rc_out [PStr "t"] [("y", PNum 1)] [] = (Ok PNone, [("title", [PStr "t"], [("y", PNum 1)])]).
Proof. repeat split. Qed.
Theorem C80_title_refuted :
  ~ (forall S (pp : string -> option (pfun S)) rc s args kw st v,
       dget rc "xtick.direction" = Ok v -> NoDup (map fst kw) -> dget kw "s" = Err KeyError ->
       title_as_stated pp rc s args kw st).
Proof.
  intros H. destruct (H _ rec_pp ex_rc_out (PStr "t") [] [("y", PNone)] [] (PStr "out")) as [_ K]; auto.
  { repeat constructor; auto. }
  specialize (K (or_introl (ex_intro _ PNone eq_refl))). vm_compute in K. discriminate.
Qed.
Theorem C80_ret_refuted :
  ~ (forall S (pp : string -> option (pfun S)) rc s args kw st v,
       dget rc "xtick.direction" = Ok v -> NoDup (map fst kw) -> dget kw "s" = Err KeyError ->
       (dget kw "y" = Ok PNone -> ~ outward rc) -> title_as_stated pp rc s args kw st).
Proof.
  intros H. destruct (H _ rec_pp ex_rc_in (PStr "t") [] [("ret", PNum 1)] [] (PStr "in")) as [_ K]; auto.
  { repeat constructor; auto. }
  { discriminate. }
  assert (N : ~ outward ex_rc_in) by (unfold outward; cbn; congruence).
  specialize (K (or_intror N)). vm_compute in K. discriminate.
Qed.

(** ** C89: the wrappers *)
Section C89.
Context {S : Type}.
Variable pyplot : string -> option (pfun S).
Definition wrap_of (nm : string) : gval S :=
  match pyplot nm with Some f => GFun (iwrapped f) | None => GNotImplemented end.
Lemma wraps_loop names : forall g nm, dget (fold_left (fun g nm => dset g nm (wrap_of nm)) names g) nm =
  if in_dec string_dec nm names then Ok (wrap_of nm) else dget g nm.
Proof.
  induction names as [|n names IH]; intros g nm; [reflexivity|]. cbn [fold_left]. rewrite IH, dget_dset.
  destruct (in_dec string_dec nm names) as [I|I], (in_dec string_dec nm (n :: names)) as [J|J]; auto.
  - exfalso. apply J. now right.
  - destruct J as [->|J]; [now rewrite String.eqb_refl|contradiction].
  - destruct (String.eqb_spec n nm) as [->|]; auto. exfalso. apply J. now left.
Qed.
(* every name of __all__ is bound, so that "from pltwraps import *" does not fail, and
   nothing else *)
Theorem C89_bound : forall names nm, (exists g, dget (wraps pyplot names) nm = Ok g) <-> In nm names.
Proof.
  intros names nm. unfold wraps. change (fun g nm => dset g nm _) with (fun (g : dict (gval S)) nm => dset g nm (wrap_of nm)).
  rewrite wraps_loop. destruct (in_dec string_dec nm names); split; eauto; [|contradiction].
  intros [g E]. discriminate.
Qed.
(* the wrapper does what the function does, with the same arguments and the same
   exceptions, and returns None *)
Theorem C89_wrapper : forall names nm f, In nm names -> pyplot nm = Some f ->
  forall pos kw s, gcall (wraps pyplot names) nm pos kw s =
    match f pos kw s with (Ok _, s') => (Ok PNone, s') | (Err e, s') => (Err e, s') end.
Proof.
  intros names nm f Hn Hf pos kw s. unfold gcall, wraps.
  change (fun g nm => dset g nm _) with (fun (g : dict (gval S)) nm => dset g nm (wrap_of nm)).
  rewrite wraps_loop. destruct (in_dec string_dec nm names); [|contradiction].
  unfold wrap_of. rewrite Hf. unfold iwrapped, andthen. reflexivity.
Qed.
(* a function that pyplot does not have: the name exists, calling it raises TypeError *)
Theorem C89_missing : forall names nm, In nm names -> pyplot nm = None ->
  forall pos kw s, gcall (wraps pyplot names) nm pos kw s = (Err TypeError, s).
Proof.
  intros names nm Hn Hf pos kw s. unfold gcall, wraps.
  change (fun g nm => dset g nm _) with (fun (g : dict (gval S)) nm => dset g nm (wrap_of nm)).
  rewrite wraps_loop. destruct (in_dec string_dec nm names); [|contradiction].
  unfold wrap_of. now rewrite Hf.
Qed.
End C89.
Example ex_C89 : gcall (wraps rec_pp pltwraps_all) "plot" [PNum 1] [("lw", PNum 2)] [] =
    (Ok PNone, [("plot", [PNum 1], [("lw", PNum 2)])]) /\
  gcall (wraps rec_pp pltwraps_all) "violinplot" [PNum 1] [] [] = (Err TypeError, []) /\
  gcall (wraps rec_pp pltwraps_all) "savefig" [PNum 1] [] [] = (Err AttributeError, []).
Proof. repeat split. Qed.
(* the names, as listed in the source *)
Fixpoint words (s acc : string) : list string :=
  match s with
  | "" => [acc]
  | String c r => if Ascii.eqb c " " then acc :: words r "" else words r (acc ++ String c "")
  end.
Example ex_C89_names : pltwraps_all = words ("annotate axhline axhspan axvline axvspan bar barbs barh boxplot broken_barh colorbar contour contourf errorbar eventplot " ++
  "figimage figlegend figtext figure fill fill_between fill_betweenx hexbin hist hist2d hlines imshow legend pcolor pcolormesh pie plot plot_date quiver scatter " ++
  "stem step streamplot subplot suptitle text title tricontour tricontourf tripcolor triplot violinplot vlines xlabel xlim ylabel ylim") "".
Proof. vm_compute. reflexivity. Qed.
Example ex_C89_all : length pltwraps_all = 52%nat /\ length (wraps rec_pp pltwraps_all) = 52%nat.
Proof. split; vm_compute; reflexivity. Qed.

(** ** C87: style_npp *)
(* the settings of the style: parameter and value *)
Definition style_values (box : bool) : list (string * pyv) :=
  [("image.cmap", PStr "viridis"); ("savefig.bbox", PStr "tight"); ("savefig.pad_inches", PNum (2 # 100));
   ("image.aspect", PStr "auto"); ("figure.facecolor", PStr "0.9"); ("figure.edgecolor", PStr "white");
   ("axes.facecolor", PStr "white"); ("axes.edgecolor", PStr (if box then "k" else "0.8"));
   ("axes.linewidth", PNum (if box then 14 # 10 else 1)); ("font.size", PNum 14);
   ("axes.titlesize", PStr "x-large"); ("axes.labelsize", PStr "large"); ("xtick.labelsize", PStr "large");
   ("ytick.labelsize", PStr "large"); ("lines.linewidth", PNum 3); ("lines.markersize", PNum 10);
   ("xtick.major.size", PNum 6); ("xtick.major.width", PNum (14 # 10)); ("ytick.major.size", PNum 6);
   ("ytick.major.width", PNum (14 # 10)); ("xtick.direction", PStr (if box then "in" else "out"));
   ("ytick.direction", PStr (if box then "in" else "out"))].
Definition cycle_values cyc_name (cycler : list string -> pyv) (cycle : string) : list (string * pyv) :=
  match dget cbq cycle with Ok l => [("axes." ++ cyc_name, cycler l)] | Err _ => [] end.

Fixpoint setall (l : list (string * pyv)) (d : dict pyv) : dict pyv :=
  match l with [] => d | (k, v) :: r => setall r (dset d k v) end.
Fixpoint rc_list (l : list (string * pyv)) (d : dict pyv) : res unit * dict pyv :=
  match l with
  | [] => (Ok tt, d)
  | (k, v) :: r => match dget d k with Ok _ => rc_list r (dset d k v) | Err e => (Err e, d) end
  end.
Lemma rc_all_list l d : rc_all l d = rc_list (map (fun t => (fst (fst t) ++ "." ++ snd (fst t), snd t)) l) d.
Proof.
  revert d; induction l as [|[[g k] v] l IH]; intros d; cbn [rc_all rc_list map fst snd]; [reflexivity|].
  unfold rc_seq, rc1. destruct (dget d (g ++ "." ++ k)); [apply IH|reflexivity].
Qed.
Lemma rc_list_app l1 l2 d : rc_list (l1 ++ l2) d = rc_seq (rc_list l1 d) (rc_list l2).
Proof.
  revert d; induction l1 as [|[k v] l1 IH]; intros d; cbn [app rc_list]; [reflexivity|].
  destruct (dget d k); [apply IH|reflexivity].
Qed.
Lemma rc_list_ok l d : (forall k, In k (map fst l) -> exists v, dget d k = Ok v) ->
  rc_list l d = (Ok tt, setall l d).
Proof.
  revert d; induction l as [|[k v] l IH]; intros d H; cbn [rc_list setall]; [reflexivity|].
  destruct (H k) as [w ->]; [now left|]. apply IH. intros k' Hk'. rewrite dget_dset.
  destruct (k =? k'); eauto. apply H. now right.
Qed.
Lemma setall_get l : NoDup (map fst l) -> forall d,
  (forall k v, In (k, v) l -> dget (setall l d) k = Ok v) /\
  (forall k, ~ In k (map fst l) -> dget (setall l d) k = dget d k).
Proof.
  induction l as [|[k v] l IH]; cbn [map fst]; intros ND d; [split; [easy|auto]|]. inversion ND as [|? ? NI ND']; subst.
  destruct (IH ND' (dset d k v)) as [A B]. cbn [setall]. split.
  - intros k' v' [E|I]; [|auto]. injection E as <- <-. rewrite B, dget_dset, String.eqb_refl by auto. reflexivity.
  - intros k' NI'. cbn in NI'. rewrite B, dget_dset by tauto. destruct (String.eqb_spec k k'); tauto.
Qed.
(* the order in which the code makes the settings *)
Definition style_seq cyc_name cycler (b : bool) (cycle : string) : list (string * pyv) :=
  firstn 1 (style_values b) ++ cycle_values cyc_name cycler cycle ++ skipn 1 (style_values b).
Lemma style_npp_list cyc_name cycler box b cycle d : bool_of box b ->
  cycle = "" \/ (exists l, dget cbq cycle = Ok l) ->
  style_npp cyc_name cycler box cycle d = rc_list (style_seq cyc_name cycler b cycle) d.
Proof.
  intros Hb Hc. unfold style_npp, style_seq, cycle_values.
  assert (C : forall d, (if cycle =? "" then (Ok tt, d) else set_color_cycle cyc_name cycler cycle PNone d) =
    rc_list (cycle_values cyc_name cycler cycle) d).
  { intros d0. unfold cycle_values, set_color_cycle. destruct Hc as [->|[l E]]; [reflexivity|].
    destruct (String.eqb_spec cycle "") as [->|]; [discriminate|]. rewrite E. unfold rc1. cbn [rc_list].
    change ("axes" ++ "." ++ cyc_name) with ("axes." ++ cyc_name). destruct (dget d0 ("axes." ++ cyc_name)); reflexivity. }
  rewrite rc_list_app. change (firstn 1 (style_values b)) with [("image.cmap", PStr "viridis")].
  unfold rc_seq at 1. unfold rc1 at 1. cbn [rc_list]. change ("image" ++ "." ++ "cmap") with "image.cmap".
  destruct (dget d "image.cmap") as [v|e]; [|reflexivity]. cbn [rc_seq]. rewrite C.
  fold (cycle_values cyc_name cycler cycle). rewrite rc_list_app.
  destruct (rc_list (cycle_values cyc_name cycler cycle) (dset d "image.cmap" (PStr "viridis"))) as [[u|e] d1]; [|reflexivity].
  cbn [rc_seq]. apply truth_bool_of in Hb. rewrite Hb, !rc_all_list.
  change (skipn 1 (style_values b)) with ((firstn 6 (skipn 1 (style_values b)) ++ firstn 2 (skipn 7 (style_values b)) ++
    firstn 11 (skipn 9 (style_values b)) ++ skipn 20 (style_values b))%list).
  rewrite !rc_list_app. clear C Hb Hc.
  change (map _ [("savefig", "bbox", _); _; _; _; _; _]) with (firstn 6 (skipn 1 (style_values b))).
  destruct (rc_list (firstn 6 (skipn 1 (style_values b))) d1) as [[w|e] d2]; [|reflexivity]. cbn [rc_seq].
  rewrite rc_list_app.
  replace (rc_all (if negb b then [("axes", "edgecolor", PStr "0.8"); ("axes", "linewidth", PNum 1)]
     else [("axes", "edgecolor", PStr "k"); ("axes", "linewidth", PNum (14 # 10))]) d2)
    with (rc_list (firstn 2 (skipn 7 (style_values b))) d2) by (rewrite rc_all_list; destruct b; reflexivity).
  destruct (rc_list (firstn 2 (skipn 7 (style_values b))) d2) as [[x|e] d3]; [|reflexivity]. cbn [rc_seq].
  rewrite rc_list_app, rc_all_list.
  change (map _ [("font", "size", _); _; _; _; _; _; _; _; _; _; _]) with (firstn 11 (skipn 9 (style_values b))).
  destruct (rc_list (firstn 11 (skipn 9 (style_values b))) d3) as [[y|e] d4]; [|reflexivity]. cbn [rc_seq].
  rewrite rc_all_list. destruct b; reflexivity.
Qed.
Lemma style_nodup cyc_name cycler b cycle : cyc_name = "prop_cycle" \/ cyc_name = "color_cycle" ->
  NoDup (map fst (style_seq cyc_name cycler b cycle)).
Proof.
  intros Hc. unfold style_seq, cycle_values. destruct (dget cbq cycle) as [l|e];
  destruct b; cbn [style_values firstn skipn app map fst]; destruct Hc as [->| ->]; cbn [append];
  match goal with |- NoDup ?L => assert (E : nodup string_dec L = L) by (vm_compute; reflexivity); rewrite <- E; apply NoDup_nodup end.
Qed.
(* After style_npp(box, cycle) every parameter of the style has its value, every other
   parameter the value it had. *)
Theorem C87_style : forall cyc_name cycler box b cycle d,
  cyc_name = "prop_cycle" \/ cyc_name = "color_cycle" ->
  bool_of box b -> cycle = "" \/ (exists l, dget cbq cycle = Ok l) ->
  (forall k, In k (map fst (style_values b ++ cycle_values cyc_name cycler cycle)) -> exists v, dget d k = Ok v) ->
  exists d', style_npp cyc_name cycler box cycle d = (Ok tt, d') /\
    (forall k v, In (k, v) (style_values b ++ cycle_values cyc_name cycler cycle) -> dget d' k = Ok v) /\
    (forall k, ~ In k (map fst (style_values b ++ cycle_values cyc_name cycler cycle)) -> dget d' k = dget d k).
Proof.
  intros cyc_name cycler box b cycle d Hn Hb Hc Hd. rewrite (style_npp_list _ _ _ b) by auto.
  set (L := (style_values b ++ cycle_values cyc_name cycler cycle)%list) in *.
  assert (P : forall p, In p (style_seq cyc_name cycler b cycle) <-> In p L).
  { intros p. unfold style_seq, L. rewrite !in_app_iff.
    rewrite <- (firstn_skipn 1 (style_values b)) at 3. rewrite in_app_iff. tauto. }
  assert (Q : forall k, In k (map fst (style_seq cyc_name cycler b cycle)) <-> In k (map fst L)).
  { intros k. rewrite !in_map_iff. split; intros (p & E & I); exists p; split; auto; now apply P. }
  rewrite rc_list_ok by (intros k Hk; apply Hd, Q, Hk).
  destruct (setall_get _ (style_nodup cyc_name cycler b cycle Hn) d) as [A B].
  eexists. split; [reflexivity|]. split.
  - intros k v I. apply A, P, I.
  - intros k NI. apply B. now rewrite Q.
Qed.
(* with the default style, title adds y=1.03; with a box it does not *)
Theorem C87_title : forall cyc_name cycler box b cycle d d' S (pp : string -> option (pfun S)) s args kw st,
  cyc_name = "prop_cycle" \/ cyc_name = "color_cycle" ->
  bool_of box b -> cycle = "" \/ (exists l, dget cbq cycle = Ok l) ->
  (forall k, In k (map fst (style_values b ++ cycle_values cyc_name cycler cycle)) -> exists v, dget d k = Ok v) ->
  style_npp cyc_name cycler box cycle d = (Ok tt, d') ->
  dget kw "s" = Err KeyError -> dget kw "ret" = Err KeyError -> dget kw "y" = Err KeyError ->
  title pp d' (s :: args) kw st =
    run pp [("title", s :: args, if b then kw else ("y", PNum (103 # 100)) :: kw)] st.
Proof.
  intros cyc_name cycler box b cycle d d' S pp s args kw st Hn Hb Hc Hd E Hs Hr Hy.
  destruct (C87_style cyc_name cycler box b cycle d Hn Hb Hc Hd) as (d1 & E1 & A & _).
  rewrite E in E1. injection E1 as <-.
  assert (D : dget d' "xtick.direction" = Ok (PStr (if b then "in" else "out"))).
  { apply A. apply in_app_iff. left. unfold style_values. cbn [In]. tauto. }
  destruct (C80_title_partial pp d' s args kw st _ D Hs Hr ltac:(congruence)) as [T1 T2].
  destruct b.
  - apply T2. right. unfold outward. rewrite D. congruence.
  - apply T1; auto.
Qed.
(* an unknown colour cycle: AttributeError, after image.cmap has been changed *)
Theorem C87_unknown_cycle : forall cyc_name cycler box cycle d v,
  dget d "image.cmap" = Ok v -> cycle <> "" -> dget cbq cycle = Err KeyError ->
  style_npp cyc_name cycler box cycle d = (Err AttributeError, dset d "image.cmap" (PStr "viridis")).
Proof.
  intros cyc_name cycler box cycle d v Hv N Hc. unfold style_npp, rc1 at 1. change ("image" ++ "." ++ "cmap") with "image.cmap".
  rewrite Hv. unfold rc_seq at 1. unfold set_color_cycle. apply String.eqb_neq in N. rewrite N, Hc. reflexivity.
Qed.
Definition ex_rc : dict pyv :=
  ("axes.grid", PNum 0) :: ("axes.prop_cycle", PNone) :: map (fun p => (fst p, PNone)) (style_values true).
Example ex_C87 : let (r, d) := style_npp "prop_cycle" PTuple PNone "set1ny" ex_rc in
  r = Ok tt /\ dget d "xtick.direction" = Ok (PStr "out") /\ dget d "axes.grid" = Ok (PNum 0) /\
  dget d "axes.linewidth" = Ok (PNum 1) /\
  dget d "axes.prop_cycle" = Ok (PTuple ["#377EB8"; "#4DAF4A"; "#E41A1C"; "#999999"; "#984EA3"; "#FF7F00"; "#A65628"; "#F781BF"]).
Proof. vm_compute. repeat split. Qed.
Example ex_C87_hyp : forall k, In k (map fst (style_values false ++ cycle_values "prop_cycle" PTuple "dark2")) ->
  exists v, dget ex_rc k = Ok v.
Proof.
  intros k H. cbn [style_values cycle_values app map fst] in H.
  assert (F : forallb (fun k => match dget ex_rc k with Ok _ => true | Err _ => false end)
    (map fst (style_values false ++ cycle_values "prop_cycle" PTuple "dark2")) = true) by (vm_compute; reflexivity).
  rewrite forallb_forall in F. specialize (F k H). destruct (dget ex_rc k); [eauto|discriminate].
Qed.

(** ** C88: the colour sets *)
(* value of a hexadecimal digit *)
Definition hex (c : ascii) : option nat :=
  let n := nat_of_ascii c in
  if (48 <=? n)%nat && (n <=? 57)%nat then Some (n - 48)%nat
  else if (65 <=? n)%nat && (n <=? 70)%nat then Some (n - 55)%nat else None.
Definition hex2 (a b : ascii) : option nat :=
  match hex a, hex b with Some x, Some y => Some (16 * x + y)%nat | _, _ => None end.
(* the colour '#RRGGBB' *)
Definition rgb (s : string) : option (nat * nat * nat) :=
  match s with
  | String h (String a (String b (String c (String d (String e (String f EmptyString)))))) =>
    match hex2 a b, hex2 c d, hex2 e f with
    | Some r, Some g, Some b => if Ascii.eqb h "#" then Some (r, g, b) else None
    | _, _, _ => None
    end
  | _ => None
  end.
(* yellow: full red and green, less blue *)
Definition yellow (s : string) : bool :=
  match rgb s with Some (r, g, b) => (r =? 255)%nat && (g =? 255)%nat && (b <? 255)%nat | None => false end.
Definition colors (name : string) : list string := match dget cbq name with Ok l => l | Err _ => [] end.
(* names and sizes as documented *)
Definition documented : list (string * nat) :=
  [("set1", 9); ("pastel1", 9); ("set2", 8); ("pastel2", 8); ("dark2", 8); ("set3", 12); ("accent", 8);
   ("paired", 12); ("set1ny", 8); ("pastel1ny", 8); ("set3ny", 11); ("accentny", 7)]%nat.
Lemma perm_check (l m : list string) :
  forallb (fun s => (count_occ string_dec l s =? count_occ string_dec m s)%nat) (l ++ m) = true -> Permutation l m.
Proof.
  intros H. apply (Permutation_count_occ string_dec). intros x. rewrite forallb_forall in H.
  destruct (in_dec string_dec x (l ++ m)) as [I|I]; [apply Nat.eqb_eq, H, I|].
  rewrite in_app_iff in I. rewrite !(proj1 (count_occ_not_In string_dec _ _)) by tauto. reflexivity.
Qed.
Theorem C88_sets :
  (* the sets are those documented, with the sizes documented, of distinct colours *)
  map (fun p => (fst p, length (snd p))) cbq = documented /\
  (forall name l, dget cbq name = Ok l -> NoDup l /\ forall s, In s l -> exists r g b, rgb s = Some (r, g, b)) /\
  (* the yellow ones *)
  (forall name, In name ["set1"; "pastel1"; "set3"; "accent"; "paired"] ->
     exists s, filter yellow (colors name) = [s]) /\
  nth 10 (colors "paired") "" = "#FFFF99" /\
  (forall name, In name (map fst cbq) -> ~ In name ["set1"; "pastel1"; "set3"; "accent"; "paired"] ->
     filter yellow (colors name) = []) /\
  (* the modified sets are the same colours without the yellow *)
  (forall name, In name ["set1"; "pastel1"; "set3"; "accent"] ->
     Permutation (colors (name ++ "ny")) (filter (fun s => negb (yellow s)) (colors name))).
Proof.
  split; [vm_compute; reflexivity|]. split.
  { intros name l E.
    assert (I : In (name, l) cbq).
    { revert E. generalize cbq as c. induction c as [|[k v] c IH]; cbn; [discriminate|].
      destruct (String.eqb_spec k name) as [->|]; [intros E; injection E as ->; auto|auto]. }
    assert (F : forallb (fun p => (length (nodup string_dec (snd p)) =? length (snd p))%nat &&
      forallb (fun s => match rgb s with Some _ => true | None => false end) (snd p)) cbq = true) by (vm_compute; reflexivity).
    rewrite forallb_forall in F. specialize (F _ I). cbn [snd] in F. apply andb_true_iff in F. destruct F as [F1 F2].
    split.
    - apply Nat.eqb_eq in F1. apply NoDup_incl_NoDup with (l := nodup string_dec l).
      + apply NoDup_nodup.
      + rewrite F1. auto.
      + intros x. apply nodup_In.
    - intros s Hs. rewrite forallb_forall in F2. specialize (F2 s Hs). destruct (rgb s) as [[[r g] b]|]; [eauto|discriminate]. }
  split; [intros name H; cbn in H; intuition subst; eexists; vm_compute; reflexivity|].
  split; [vm_compute; reflexivity|]. split.
  - intros name H N. cbn in H, N. intuition subst; try (vm_compute; reflexivity); exfalso; tauto.
  - intros name H. apply perm_check. cbn in H. intuition subst; vm_compute; reflexivity.
Qed.
(* the default cycle *)
Theorem C88_cycle : forall cyc_name cycler name axes d l v,
  dget cbq name = Ok l -> dget d ("axes." ++ cyc_name) = Ok v ->
  exists d', set_color_cycle cyc_name cycler name axes d = (Ok tt, d') /\
    dget d' ("axes." ++ cyc_name) = Ok (cycler l) /\
    forall k, k <> "axes." ++ cyc_name -> dget d' k = dget d k.
Proof.
  intros cyc_name cycler name axes d l v Hl Hv. unfold set_color_cycle, rc1. rewrite Hl.
  change ("axes" ++ "." ++ cyc_name) with ("axes." ++ cyc_name). rewrite Hv. eexists. split; [reflexivity|]. split.
  - now rewrite dget_dset, String.eqb_refl.
  - intros k Hk. rewrite dget_dset. destruct (String.eqb_spec ("axes." ++ cyc_name) k); congruence.
Qed.
(* "If [axes is] not provided, sets the default color cycle [...]  Otherwise, sets the
   color cycle for the given axes.": the argument is ignored, the default is changed. *)
Theorem C88_axes_refuted :
  ~ (forall cyc_name cycler name axes d, axes <> PNone ->
       forall k, dget (snd (set_color_cycle cyc_name cycler name axes d)) k = dget d k).
Proof.
  intros H. specialize (H "prop_cycle" PTuple "set2" (PObj 1 (Ok true)) [("axes.prop_cycle", PNone)] ltac:(discriminate) "axes.prop_cycle").
  vm_compute in H. discriminate.
Qed.
Theorem C88_axes_ignored : forall cyc_name cycler name axes axes' d,
  set_color_cycle cyc_name cycler name axes d = set_color_cycle cyc_name cycler name axes' d.
Proof. reflexivity. Qed.

Print Assumptions C80_logxy.
Print Assumptions C80_title_partial.
Print Assumptions C87_style.
Print Assumptions C88_sets.
Print Assumptions C89_wrapper.
