(* /repo/npplus/fermi.py: Fermi-Dirac integrals of orders -1/2, 1/2, 3/2, 5/2 and
   their inverses.

   Arithmetic is exact real arithmetic; the decimal literals of the tables are
   taken at their decimal value.  An element that numpy would compute by a division
   by zero, or as the logarithm of a number <= 0, is not a number here: [None]
   (numpy gives nan or inf, or raises under npplus.interactive's seterr). *)
From Coq Require Import List Arith ZArith QArith Qreals Bool Lia Reals.
From Verif Require Import Num PyBase NdArray.
Import ListNotations.
Open Scope res_scope.

Section Peval.
Context {K : Type} {NK : Num K}.
Open Scope num_scope.
(* fermi.py:56-61
     def _peval(c, x):
         p = c[0]*x + c[1]
         for a in c[2:]:
             p *= x
             p += a
         return p
   x is a 1-d array, given by the list of its elements. *)
Definition peval (c : list K) (x : list K) : res (list K) :=
  match c with
  | c0 :: c1 :: r =>
    Ok (fold_left (fun p a => map (fun y => y + a) (zipw nmul p x)) r
         (map (fun y => c0 * y + c1) x))
  | _ => Err IndexError
  end.
End Peval.

(* x[mask] and y[mask] = v for 1-d arrays; the number of values must be the number
   of true elements *)
Fixpoint compress {A} (mask : list bool) (x : list A) : list A :=
  match mask, x with
  | b :: mask', a :: x' => if b then a :: compress mask' x' else compress mask' x'
  | _, _ => []
  end.
Fixpoint scatter {A} (mask : list bool) (v y : list A) : res (list A) :=
  match mask, y with
  | b :: mask', a :: y' =>
    if b then
      match v with
      | [] => Err ValueError
      | w :: v' => let! r := scatter mask' v' y' in Ok (w :: r)
      end
    else let! r := scatter mask' v y' in Ok (a :: r)
  | _, _ => match v with [] => Ok [] | _ => Err ValueError end
  end.

Open Scope R_scope.
(* elements that may fail to be numbers *)
Definition odiv (a b : R) : option R := if Reqb b 0 then None else Some (a / b).
Definition olog (a : option R) : option R :=
  match a with Some x => if Rltb 0 x then Some (ln x) else None | None => None end.
Definition tab (c : list Q) : list R := map Q2R c.
(* x.ravel() and y.reshape(shape) *)
Definition flat {A} (x : nd A) : list A := map (fun k => get x (unravel (shp x) k)) (seq 0 (size (shp x))).
Definition unflat {A} (d : A) (s : list nat) (y : list A) : nd A := Nd s (fun idx => nth (ravel s idx) y d).

(* fermi.py:33-53, the template of the integrals:
     x = asfarray(x)
     shape, x = x.shape, x.ravel()
     mask = x < 2.
     y = zeros_like(x)
     z = x[mask]
     if z.size:
         z = exp(z)
         y[mask] = z * _peval(anum, z) / _peval(aden, z)
     mask = ~mask
     x = x[mask]
     if x.size:
         z = 1. / (x * x)
         x = sqrt(x) * f(x)
         y[mask] = x * _peval(bnum, z) / _peval(bden, z)
     return y.reshape(shape)
   f acts elementwise. *)
Definition fd_template (anum aden bnum bden : list Q) (f : R -> R) (x : nd R) : res (nd (option R)) :=
  let shape := shp x in
  let x := flat x in
  let mask := map (fun a => Rltb a 2) x in
  let y := map (fun _ => Some 0) x in
  let z := compress mask x in
  let! y :=
    if (length z =? 0)%nat then Ok y
    else
      let z := map exp z in
      let! p := peval (tab anum) z in
      let! q := peval (tab aden) z in
      scatter mask (zipw odiv (zipw Rmult z p) q) y in
  let mask := map negb mask in
  let x := compress mask x in
  let! y :=
    if (length x =? 0)%nat then Ok y
    else
      let z := map (fun a => 1 / (a * a)) x in
      let x := map (fun a => sqrt a * f a) x in
      let! p := peval (tab bnum) z in
      let! q := peval (tab bden) z in
      scatter mask (zipw odiv (zipw Rmult x p) q) y in
  Ok (unflat None shape y).

(* fermi.py:184-202, the template of the inverses:
     mask = x < 4.
     ...
     if z.size:
         y[mask] = log(z * _peval(anum, z) / _peval(aden, z))
     ...
     if x.size:
         z = f(x)
         y[mask] = _peval(bnum, z) / (z * _peval(bden, z)) *)
Definition ifd_template (anum aden bnum bden : list Q) (f : R -> R) (x : nd R) : res (nd (option R)) :=
  let shape := shp x in
  let x := flat x in
  let mask := map (fun a => Rltb a 4) x in
  let y := map (fun _ => Some 0) x in
  let z := compress mask x in
  let! y :=
    if (length z =? 0)%nat then Ok y
    else
      let! p := peval (tab anum) z in
      let! q := peval (tab aden) z in
      scatter mask (map olog (zipw odiv (zipw Rmult z p) q)) y in
  let mask := map negb mask in
  let x := compress mask x in
  let! y :=
    if (length x =? 0)%nat then Ok y
    else
      let z := map f x in
      let! p := peval (tab bnum) z in
      let! q := peval (tab bden) z in
      scatter mask (zipw odiv p (zipw Rmult z q)) y in
  Ok (unflat None shape y).

(** The coefficient tables *)
Open Scope Q_scope.
(* fermi.py:64-66 *)
Definition fdm12_anum : list Q := [1.0; 1.98276889924768e3; 1.14980998186874e5; 1.83696370756153e6;
  1.14587609192151e7; 3.16743385304962e7; 3.88148302324068e7; 1.71446374704454e7].
(* fermi.py:67-69 *)
Definition fdm12_aden : list Q := [4.35061725080755e2; 3.13595854332114e4; 6.13709569333207e5;
  4.81648022267831e6; 1.77657027846367e7; 3.26070130734158e7; 2.87386436731785e7;
  9.67282587452899e6].
(* fermi.py:70-74 *)
Definition fdm12_bnum : list Q := [1.0; 2.98435207466372e0; -7.45519953763928e-1;
  -8.52408612877447e-1; -1.60926102124442e-1; -1.12295393687006e-2; -3.69976170193942e-4;
  -6.64932238528105e-6; -6.84738791621745e-8; -4.44467627042232e-10; -1.58654991146236e-12;
  -4.46620341924942e-15].
(* fermi.py:75-79 *)
Definition fdm12_bden : list Q := [4.16485970495288e-1; 1.86795964993052e0; -4.99759250374148e-1;
  -4.78770844009440e-1; -8.34904593067194e-2; -5.69764436880529e-3; -1.86432212187088e-4;
  -3.33919612678907e-6; -3.43299431079845e-8; -2.22564376956228e-10; -7.94193282071464e-13;
  -2.23310170962369e-15].
(* fermi.py:96-98 *)
Definition fd12_anum : list Q := [1.0; 7.77238678539648e2; 4.16031909245777e4; 6.42493233715640e5;
  3.93536421893014e6; 1.07608632249013e7; 1.30964880355883e7; 5.75834152995465e6].
(* fermi.py:99-101 *)
Definition fd12_aden : list Q := [9.02129136642157e1; 8.17922106644547e3; 1.95155948326832e5;
  1.83167424554505e6; 7.95192647756086e6; 1.69288134856160e7; 1.70750501625775e7;
  6.49759261942269e6].
(* fermi.py:102-105 *)
Definition fd12_bnum : list Q := [1.0; 1.91247528779676e0; 1.08037861921488e0; 2.48653216266227e-1;
  2.60768398973913e-2; 1.32212995937796e-3; 3.40679845803144e-5; 4.69233883900644e-7;
  3.76794942277806e-9; 1.64429113030738e-11; 4.85378381173415e-14].
(* fermi.py:106-109 *)
Definition fd12_bden : list Q := [-2.14562434782759e-2; 2.01311836975930e-1; 1.34981244060549e0;
  1.16434871200131e0; 3.24095226486468e-1; 3.66887808002874e-2; 1.92040136756592e-3;
  5.02360015186394e-5; 6.96888634549649e-7; 5.62152894375277e-9; 2.45745452167585e-11;
  7.28067571760518e-14].
(* fermi.py:126-127 *)
Definition fd32_anum : list Q := [1.0; 9.90562948053193e1; 2.21876607796460e3; 1.77294861572005e4;
  5.95275291210962e4; 8.55472308218786e4; 4.32326386604283e4].
(* fermi.py:128-130 *)
Definition fd32_aden : list Q := [1.99507945223266e-2; 5.05580641737527e0; 2.20853967067789e2;
  3.20803912586318e3; 1.95942074576400e4; 5.50859144223638e4; 7.01022511904373e4;
  3.25218725353467e4].
(* fermi.py:131-134 *)
Definition fd32_bnum : list Q := [1.0; 9.02250179334496e-1; 2.78383256609605e-1;
  3.85682997219346e-2; 2.62988766922117e-3; 9.12915407846722e-5; 1.63598843752050e-6;
  1.62974620742993e-8; 8.60096863656367e-11; 2.80452693148553e-13].
(* fermi.py:135-138 *)
Definition fd32_bden : list Q := [2.34829436438087e-3; -2.15540156936373e-2; 4.70252591891375e-1;
  3.14236143831882e-1; 6.39899717779153e-2; 5.31999109566385e-3; 2.04569943213216e-4;
  3.84703231868724e-6; 3.94452010378723e-8; 2.10699282897576e-10; 7.01131732871184e-13].
(* fermi.py:155-156 *)
Definition fd52_anum : list Q := [1.0; 1.02589947781696e2; 2.44325236813275e3; 2.10427138842443e4;
  7.67255995316812e4; 1.20132462801652e5; 6.61606300631656e4].
(* fermi.py:157-159 *)
Definition fd52_aden : list Q := [3.31482978240026e-3; 1.16951072617142e0; 6.35483623268093e1;
  1.10886130159658e3; 7.97584657659364e3; 2.60117136841197e4; 3.79076097261066e4;
  1.99078071053871e4].
(* fermi.py:160-163 *)
Definition fd52_bnum : list Q := [1.0; 3.42040216997894e0; 3.18831203950106e0; 1.24415366126179e0;
  2.39564845938301e-1; 2.32779790773633e-2; 1.14008027400645e-3; 2.77981736000034e-5;
  3.54323824923987e-7; 2.31618876821567e-9; 8.42667076131315e-12].
(* fermi.py:164-167 *)
Definition fd52_bden : list Q := [2.27326643192516e-2; 3.70866321410385e-1; 5.31886045222680e-1;
  2.27132567866839e-1; 3.99937801931919e-2; 2.81111224925648e-3; 8.09451165406274e-5;
  1.12919616415947e-6; 7.68215783076936e-9; 2.94933476646033e-11].
(* fermi.py:205-206 *)
Definition ifdm12_anum : list Q := [1.0; -3.174780572961e1; 4.121170498099e2; -2.805343454951e3;
  1.001958278442e4; -1.570044577033e4].
(* fermi.py:207-209 *)
Definition ifdm12_aden : list Q := [-1.008561571363e0; 3.168918168284e1; -4.225615045074e2;
  3.063252215963e3; -1.274243093149e4; 2.886114034012e4; -2.782831558471e4].
(* fermi.py:210-211 *)
Definition ifdm12_bnum : list Q := [1.0; -9.588603457639e-2; 1.814141021608e-2; -1.169411057416e-3;
  6.103116850636e-5; -1.437701234283e-6; 2.206779160034e-8].
(* fermi.py:212-214 *)
Definition ifdm12_bden : list Q := [3.124344749296e0; -3.217372489776e-1; 6.932122275919e-2;
  -4.601959491394e-3; 2.429627688357e-4; -5.750804196059e-6; 8.827116613576e-8].
(* fermi.py:231-232 *)
Definition ifd12_anum : list Q := [1.0; 3.818838129486e1; 6.610132843877e2; 5.702479099336e3;
  1.999266880833e4].
(* fermi.py:233-234 *)
Definition ifd12_aden : list Q := [-1.670718177489e0; 9.130355392717e1; -2.014785161019e3;
  1.771804140488e4].
(* fermi.py:235-236 *)
Definition ifd12_bnum : list Q := [1.0; -3.930805454272e-1; -1.285579118012e0; 4.997559426872e-1;
  -4.262314235106e-1; 7.187946804945e-2; -1.277060388085e-2].
(* fermi.py:237-238 *)
Definition ifd12_bden : list Q := [-6.067091689181e-2; -1.145531476975e0; 4.077841975923e-1;
  -3.299466243260e-1; 5.485432756838e-2; -9.745794806288e-3].
(* fermi.py:255-255 *)
Definition ifd32_anum : list Q := [1.0; 2.056296753055e1; 1.125926232897e2; 1.715627994191e2].
(* fermi.py:256-257 *)
Definition ifd32_aden : list Q := [3.519268762788e-3; -3.226808804038e-1; 1.167743113540e1;
  1.193456203021e2; 2.280653583157e2].
(* fermi.py:258-259 *)
Definition ifd32_bnum : list Q := [1.0; 3.684471177100e-1; -5.951932864088e-1; -4.657944387545e-1;
  -1.057562799320e-1; -2.183147266896e-2; -6.321828169799e-3].
(* fermi.py:260-261 *)
Definition ifd32_bden : list Q := [-1.387107009074e-1; -5.074812565486e-1; -3.407561772612e-1;
  -7.850001283886e-2; -1.513236504100e-2; -4.381942605018e-3].
(* fermi.py:278-278 *)
Definition ifd52_anum : list Q := [1.0; 3.539903493971e1; 2.138969250409e2].
(* fermi.py:279-280 *)
Definition ifd52_aden : list Q := [-1.182798726503e-2; 1.067755522895e0; 9.873746988121e1;
  7.108545512710e2].
(* fermi.py:281-282 *)
Definition ifd52_bnum : list Q := [1.0; -1.498867562255e0; 5.495613498630e-1; 5.099038074944e-1;
  -4.820942898296e-1; 1.315763372315e-1; -3.312041011227e-2].
(* fermi.py:283-285 *)
Definition ifd52_bden : list Q := [-3.008504449098e-2; 3.739781456585e-2; -3.847241692193e-1;
  5.415026856351e-1; -3.835879295548e-1; 9.198776585252e-2; -2.315515517515e-2].

(** The functions, fermi.py:64-299; the body of the decorated function is the
    scaling f of the template. *)
Open Scope R_scope.
(* return 1.0 (fermi.py:93) *)
Definition fdm12 := fd_template fdm12_anum fdm12_aden fdm12_bnum fdm12_bden (fun _ => 1).
(* return x (fermi.py:123) *)
Definition fd12 := fd_template fd12_anum fd12_aden fd12_bnum fd12_bden (fun x => x).
(* return x*x (fermi.py:152) *)
Definition fd32 := fd_template fd32_anum fd32_aden fd32_bnum fd32_bden (fun x => x * x).
(* return x*x*x (fermi.py:181) *)
Definition fd52 := fd_template fd52_anum fd52_aden fd52_bnum fd52_bden (fun x => x * x * x).
(* return 1./(x*x) (fermi.py:228) *)
Definition ifdm12 := ifd_template ifdm12_anum ifdm12_aden ifdm12_bnum ifdm12_bden (fun x => 1 / (x * x)).
(* return x ** (-2./3.) (fermi.py:252) *)
Definition ifd12 := ifd_template ifd12_anum ifd12_aden ifd12_bnum ifd12_bden (fun x => Rpower x (- 2 / 3)).
(* return x ** (-2./5.) (fermi.py:275) *)
Definition ifd32 := ifd_template ifd32_anum ifd32_aden ifd32_bnum ifd32_bden (fun x => Rpower x (- 2 / 5)).
(* return x ** (-2./7.) (fermi.py:299) *)
Definition ifd52 := ifd_template ifd52_anum ifd52_aden ifd52_bnum ifd52_bden (fun x => Rpower x (- 2 / 7)).
