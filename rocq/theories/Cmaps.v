(* /repo/npplus/pyplotx/mpl2cmaps.py: the colormaps of matplotlib 2 and the functions installing them.

   The state of matplotlib is rcParams, the registered colormaps, the colormap of the current image if there is one,
   and the number of calls of draw_if_interactive.  Simplifications: rc() as in Pyplotx.v; a colormap is the list of its
   colours, in millionths; set_cmap of a name that is not registered raises ValueError. *)
From Coq Require Import String List ZArith Bool.
From Verif Require Import PyBase ItemAttr Pyplotx CmapData.
Import ListNotations.
Local Open Scope string_scope.

Definition colours := list (Z * Z * Z).
Record mpl := Mpl { m_rc : dict pyv; m_reg : dict colours; m_image : option colours; m_draws : nat }.

(* mpl2cmaps.py:1054-1060 *)
Definition cmaps : dict colours :=
  fold_left (fun d nd => dset d (fst nd) (snd nd))
    [("magma", magma_data); ("inferno", inferno_data); ("plasma", plasma_data); ("viridis", viridis_data)] [].
(* mpl2cmaps.py:1062-1069: registering them under their own names *)
Definition register_all (m : mpl) : mpl :=
  Mpl (m_rc m) (fold_left (fun d nd => dset d (fst nd) (snd nd)) cmaps (m_reg m)) (m_image m) (m_draws m).
(* mpl2cmaps.py:1072-1078, the function made by cminst(name) *)
Definition install_cmap (name : string) (m : mpl) : res pyv * mpl :=
  match rc1 (m_rc m) "image" "cmap" (PStr name) with
  | (Err e, d) => (Err e, Mpl d (m_reg m) (m_image m) (m_draws m))
  | (Ok _, d) =>
    match m_image m with
    | None => (Ok PNone, Mpl d (m_reg m) None (S (m_draws m)))
    | Some im =>
      match dget (m_reg m) name with
      | Err _ => (Err ValueError, Mpl d (m_reg m) (Some im) (m_draws m))
      | Ok c => (Ok PNone, Mpl d (m_reg m) (Some c) (S (m_draws m)))
      end
    end
  end.
(* mpl2cmaps.py:1088-1089 and 17: the public names and the functions bound to them *)
Definition cmap_names : list string := ["magma"; "inferno"; "plasma"; "viridis"].
Definition cmap_functions : dict (mpl -> res pyv * mpl) :=
  combine ["magma"; "inferno"; "plasma"; "viridis"] (map install_cmap ["magma"; "inferno"; "plasma"; "viridis"]).
