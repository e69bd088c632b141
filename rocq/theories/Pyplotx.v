(* /repo/npplus/pyplotx: pltwraps.py, mpldefaults.py, cbqcolors.py.

   matplotlib.pyplot is a parameter: a partial function from names to functions of
   positional and keyword arguments that change a state of arbitrary type and return a
   value or raise.  rcParams is a dict from names to values.

   Simplifications: matplotlib's rc() accepts every value for an existing parameter and
   raises KeyError for one that does not exist (it also validates the values); the class
   CBQ has the colour sets as its only attributes. *)
From Coq Require Import String List Arith ZArith QArith Bool.
From Verif Require Import PyBase ItemAttr.
Import ListNotations.
Local Open Scope string_scope.

(* Python values; PObj carries what bool() makes of it *)
Inductive pyv := PNone | PEllipsis | PStr (s : string) | PNum (q : Q) | PTuple (l : list string)
  | PObj (id : nat) (b : res bool).
(* bool(v) *)
Definition truth (v : pyv) : res bool :=
  match v with
  | PNone => Ok false
  | PEllipsis => Ok true
  | PStr s => Ok (negb (s =? ""))
  | PNum q => Ok (negb (Qeq_bool q 0))
  | PTuple l => Ok (match l with [] => false | _ => true end)
  | PObj _ b => b
  end.
Definition is_none (v : pyv) : bool := match v with PNone => true | _ => false end.
Definition is_ellipsis (v : pyv) : bool := match v with PEllipsis => true | _ => false end.

Section Pyplot.
Context {S : Type}.
(* functions of pyplot *)
Definition pfun := list pyv -> dict pyv -> S -> res pyv * S.
Variable pyplot : string -> option pfun.

(* plt.name(...) *)
Definition call (name : string) (pos : list pyv) (kw : dict pyv) (s : S) : res pyv * S :=
  match pyplot name with Some f => f pos kw s | None => (Err AttributeError, s) end.
(* a call as a statement *)
Definition andthen {A B} (r : res A * S) (k : S -> res B * S) : res B * S :=
  match r with (Ok _, s) => k s | (Err e, s) => (Err e, s) end.
(* 'log' if v else 'linear' *)
Definition scale_name (v : pyv) : res pyv := rmap (fun b : bool => PStr (if b then "log" else "linear")) (truth v).

(* pltwraps.py:56-74, plt.axis(xmin=xmin, xmax=xmax, ymin=ymin, ymax=ymax) *)
Definition xylim (xmin xmax ymin ymax : pyv) (s : S) : res pyv * S :=
  andthen (call "axis" [] [("xmin", xmin); ("xmax", xmax); ("ymin", ymin); ("ymax", ymax)] s)
    (fun s => (Ok PNone, s)).

(* if v is not None: plt.name('log' if v else 'linear') *)
Definition set_scale (name : string) (v : pyv) (s : S) : res pyv * S :=
  if is_none v then (Ok PNone, s)
  else match scale_name v with Ok w => call name [w] [] s | Err e => (Err e, s) end.
(* pltwraps.py:77-95; the defaults are islog=None, islogy=Ellipsis *)
Definition logxy (islog islogy : pyv) (s : S) : res pyv * S :=
  andthen (set_scale "xscale" islog s) (fun s =>
  let islogy := if is_ellipsis islogy then islog else islogy in
  andthen (set_scale "yscale" islogy s) (fun s => (Ok PNone, s))).

(* pltwraps.py:36-43, the wrapper made by _iwrap *)
Definition iwrapped (f : pfun) : pfun := fun pos kw s =>
  andthen (f pos kw s) (fun s => (Ok PNone, s)).
Inductive gval := GFun (f : pfun) | GNotImplemented.
(* pltwraps.py:46-53, the loop over __all__ *)
Definition wraps (names : list string) : dict gval :=
  fold_left (fun g nm => dset g nm
    (match pyplot nm with Some f => GFun (iwrapped f) | None => GNotImplemented end)) names [].
(* calling what a name is bound to; NotImplemented is not callable *)
Definition gcall (g : dict gval) (name : string) (pos : list pyv) (kw : dict pyv) (s : S) : res pyv * S :=
  match dget g name with
  | Ok (GFun f) => f pos kw s
  | Ok GNotImplemented => (Err TypeError, s)
  | Err _ => (Err AttributeError, s)
  end.

(* mpldefaults.py:117-122
     def title(s, *args, **kwargs):
         y = kwargs.get('y')
         kwargs.pop('ret', None)
         if y is None and rcParams['xtick.direction'] == 'out':
             kwargs = dict(y=1.03, **kwargs)
         plt.title(s, *args, **kwargs)
   with the binding of s *)
Definition kwget (kw : dict pyv) (k : string) : pyv := match dget kw k with Ok v => v | Err _ => PNone end.
Definition kwpop (kw : dict pyv) (k : string) : dict pyv := match ddel kw k with Ok d => d | Err _ => kw end.
Definition pyv_is_str (v : pyv) (t : string) : bool := match v with PStr s => s =? t | _ => false end.
Definition bind_s (pos : list pyv) (kw : dict pyv) : res (pyv * list pyv * dict pyv) :=
  match pos, dget kw "s" with
  | s :: args, Err _ => Ok (s, args, kw)
  | _ :: _, Ok _ => Err TypeError
  | [], Ok s => Ok (s, [], kwpop kw "s")
  | [], Err _ => Err TypeError
  end.
Definition title (rc : dict pyv) (pos : list pyv) (kw : dict pyv) (st : S) : res pyv * S :=
  match bind_s pos kw with
  | Err e => (Err e, st)
  | Ok (s, args, kwargs) =>
    let y := kwget kwargs "y" in
    let kwargs := kwpop kwargs "ret" in
    let out := if is_none y then rmap (fun d => pyv_is_str d "out") (dget rc "xtick.direction") else Ok false in
    match out with
    | Err e => (Err e, st)
    | Ok b =>
      let kwargs' := if b then
          match dget kwargs "y" with
          | Ok _ => Err TypeError            (* dict(y=1.03, **kwargs) with two values for y *)
          | Err _ => Ok (("y", PNum (103 # 100)) :: kwargs)
          end else Ok kwargs in
      match kwargs' with
      | Err e => (Err e, st)
      | Ok kwargs' => andthen (call "title" (s :: args) kwargs' st) (fun st => (Ok PNone, st))
      end
    end
  end.
End Pyplot.
Arguments pfun : clear implicits.
Arguments gval : clear implicits.

(* __all__ of pltwraps.py:20-30 *)
Definition pltwraps_all : list string :=
  ["annotate"; "axhline"; "axhspan"; "axvline"; "axvspan"; "bar"; "barbs"; "barh"; "boxplot"; "broken_barh";
   "colorbar"; "contour"; "contourf"; "errorbar"; "eventplot"; "figimage"; "figlegend"; "figtext"; "figure"; "fill";
   "fill_between"; "fill_betweenx"; "hexbin"; "hist"; "hist2d"; "hlines"; "imshow"; "legend"; "pcolor";
   "pcolormesh"; "pie"; "plot"; "plot_date"; "quiver"; "scatter"; "stem"; "step"; "streamplot"; "subplot";
   "suptitle"; "text"; "title"; "tricontour"; "tricontourf"; "tripcolor"; "triplot"; "violinplot"; "vlines"; "xlabel";
   "xlim"; "ylabel"; "ylim"].

(** cbqcolors.py *)
(* cbqcolors.py:56-83, the class attributes *)
Definition cbq : list (string * list string) :=
  [("set1", ["#E41A1C"; "#377EB8"; "#4DAF4A"; "#984EA3"; "#FF7F00";
             "#FFFF33"; "#A65628"; "#F781BF"; "#999999"]);
   ("pastel1", ["#FBB4AE"; "#B3CDE3"; "#CCEBC5"; "#DECBE4"; "#FED9A6";
                "#FFFFCC"; "#E5D8BD"; "#FDDAEC"; "#F2F2F2"]);
   ("set2", ["#66C2A5"; "#FC8D62"; "#8DA0CB"; "#E78AC3"; "#A6D854";
             "#FFD92F"; "#E5C494"; "#B3B3B3"]);
   ("pastel2", ["#B3E2CD"; "#FDCDAC"; "#CBD5E8"; "#F4CAE4"; "#E6F5C9";
                "#FFF2AE"; "#F1E2CC"; "#CCCCCC"]);
   ("dark2", ["#1B9E77"; "#D95F02"; "#7570B3"; "#E7298A"; "#66A61E";
              "#E6AB02"; "#A6761D"; "#666666"]);
   ("set3", ["#8DD3C7"; "#FFFFB3"; "#BEBADA"; "#FB8072"; "#80B1D3"; "#FDB462";
             "#B3DE69"; "#FCCDE5"; "#D9D9D9"; "#BC80BD"; "#CCEBC5"; "#FFED6F"]);
   ("accent", ["#7FC97F"; "#BEAED4"; "#FDC086"; "#FFFF99"; "#386CB0";
               "#F0027F"; "#BF5B17"; "#666666"]);
   ("paired", ["#A6CEE3"; "#1F78B4"; "#B2DF8A"; "#33A02C"; "#FB9A99"; "#E31A1C";
               "#FDBF6F"; "#FF7F00"; "#CAB2D6"; "#6A3D9A"; "#FFFF99"; "#B15928"]);
   ("set1ny", ["#377EB8"; "#4DAF4A"; "#E41A1C"; "#999999"; "#984EA3";
               "#FF7F00"; "#A65628"; "#F781BF"]);
   ("pastel1ny", ["#B3CDE3"; "#CCEBC5"; "#FBB4AE"; "#F2F2F2"; "#DECBE4";
                  "#FED9A6"; "#E5D8BD"; "#FDDAEC"]);
   ("set3ny", ["#80B1D3"; "#B3DE69"; "#FB8072"; "#8DD3C7"; "#BC80BD"; "#FFED6F";
               "#D9D9D9"; "#FCCDE5"; "#BEBADA"; "#FDB462"; "#CCEBC5"]);
   ("accentny", ["#386CB0"; "#7FC97F"; "#F0027F"; "#BF5B17"; "#BEAED4";
                 "#FDC086"; "#666666"])].

(* matplotlib.rc(group, key=value) on the dict rcParams; it also returns the dict
   reached when it raises *)
Definition rc1 (d : dict pyv) (group key : string) (v : pyv) : res unit * dict pyv :=
  let k := group ++ "." ++ key in
  match dget d k with Ok _ => (Ok tt, dset d k v) | Err e => (Err e, d) end.
Definition rc_seq (r : res unit * dict pyv) (k : dict pyv -> res unit * dict pyv) : res unit * dict pyv :=
  match r with (Ok _, d) => k d | (Err e, d) => (Err e, d) end.
Fixpoint rc_all (l : list (string * string * pyv)) (d : dict pyv) : res unit * dict pyv :=
  match l with
  | [] => (Ok tt, d)
  | (g, k, v) :: l' => rc_seq (rc1 d g k v) (rc_all l')
  end.

Section Style.
Variable cyc_name : string.     (* cbqcolors.py:7-17, 'prop_cycle', or 'color_cycle' for old versions *)
Variable cycler : list string -> pyv.  (* cycler('color', names) *)
(* CBQ.set_color_cycle, cbqcolors.py:85-98; the argument axes is not used *)
Definition set_color_cycle (name : string) (axes : pyv) (d : dict pyv) : res unit * dict pyv :=
  match dget cbq name with
  | Ok l => rc1 d "axes" cyc_name (cycler l)
  | Err _ => (Err AttributeError, d)
  end.
(* style_npp, mpldefaults.py:40-113 *)
Definition style_npp (box : pyv) (cycle : string) (d : dict pyv) : res unit * dict pyv :=
  rc_seq (rc1 d "image" "cmap" (PStr "viridis")) (fun d =>
  rc_seq (if cycle =? "" then (Ok tt, d) else set_color_cycle cycle PNone d) (fun d =>
  rc_seq (rc_all [("savefig", "bbox", PStr "tight"); ("savefig", "pad_inches", PNum (2 # 100));
                  ("image", "aspect", PStr "auto"); ("figure", "facecolor", PStr "0.9");
                  ("figure", "edgecolor", PStr "white"); ("axes", "facecolor", PStr "white")] d) (fun d =>
  match truth box with
  | Err e => (Err e, d)
  | Ok b =>
    rc_seq (rc_all (if negb b then [("axes", "edgecolor", PStr "0.8"); ("axes", "linewidth", PNum 1)]
                    else [("axes", "edgecolor", PStr "k"); ("axes", "linewidth", PNum (14 # 10))]) d) (fun d =>
    rc_seq (rc_all [("font", "size", PNum 14); ("axes", "titlesize", PStr "x-large");
                    ("axes", "labelsize", PStr "large"); ("xtick", "labelsize", PStr "large");
                    ("ytick", "labelsize", PStr "large"); ("lines", "linewidth", PNum 3);
                    ("lines", "markersize", PNum 10); ("xtick.major", "size", PNum 6);
                    ("xtick.major", "width", PNum (14 # 10)); ("ytick.major", "size", PNum 6);
                    ("ytick.major", "width", PNum (14 # 10))] d) (fun d =>
    rc_all (if negb b then [("xtick", "direction", PStr "out"); ("ytick", "direction", PStr "out")]
            else [("xtick", "direction", PStr "in"); ("ytick", "direction", PStr "in")]) d))
  end))).
End Style.
