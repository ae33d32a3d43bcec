(** Model of mrx/quadrature.py over the reals.  The tabulated floats are taken as
    the decimal numbers written in the file. *)
From Coq Require Import Reals List ZArith Bool.
From Verif Require Import Model.RBase Model.Spline.
Import ListNotations.
Local Open Scope Z_scope.

(** gauss_n_nodes / gauss_n_weights, quadrature.py:260-430: the decimal numbers of the file, in units of 10^-16 *)
(** quadrature.py:262-264 *)
Definition gauss_1_nodes : list Z :=
  [ 0 ].
(** quadrature.py:266-268 *)
Definition gauss_1_weights : list Z :=
  [ 20000000000000000 ].
(** quadrature.py:270-273 *)
Definition gauss_2_nodes : list Z :=
  [ -5773502691896258;
    5773502691896258 ].
(** quadrature.py:275-278 *)
Definition gauss_2_weights : list Z :=
  [ 10000000000000000;
    10000000000000000 ].
(** quadrature.py:280-284 *)
Definition gauss_3_nodes : list Z :=
  [ -7745966692414834;
    0;
    7745966692414834 ].
(** quadrature.py:286-290 *)
Definition gauss_3_weights : list Z :=
  [ 5555555555555556;
    8888888888888888;
    5555555555555556 ].
(** quadrature.py:292-297 *)
Definition gauss_4_nodes : list Z :=
  [ -8611363115940526;
    -3399810435848563;
    3399810435848563;
    8611363115940526 ].
(** quadrature.py:299-304 *)
Definition gauss_4_weights : list Z :=
  [ 3478548451374538;
    6521451548625461;
    6521451548625461;
    3478548451374538 ].
(** quadrature.py:306-312 *)
Definition gauss_5_nodes : list Z :=
  [ -9061798459386640;
    -5384693101056831;
    0;
    5384693101056831;
    9061798459386640 ].
(** quadrature.py:314-320 *)
Definition gauss_5_weights : list Z :=
  [ 2369268850561891;
    4786286704993665;
    5688888888888889;
    4786286704993665;
    2369268850561891 ].
(** quadrature.py:322-329 *)
Definition gauss_6_nodes : list Z :=
  [ -9324695142031521;
    -6612093864662645;
    -2386191860831969;
    2386191860831969;
    6612093864662645;
    9324695142031521 ].
(** quadrature.py:331-338 *)
Definition gauss_6_weights : list Z :=
  [ 1713244923791704;
    3607615730481386;
    4679139345726910;
    4679139345726910;
    3607615730481386;
    1713244923791704 ].
(** quadrature.py:340-348 *)
Definition gauss_7_nodes : list Z :=
  [ -9491079123427585;
    -7415311855993945;
    -4058451513773972;
    0;
    4058451513773972;
    7415311855993945;
    9491079123427585 ].
(** quadrature.py:350-358 *)
Definition gauss_7_weights : list Z :=
  [ 1294849661688697;
    2797053914892766;
    3818300505051189;
    4179591836734694;
    3818300505051189;
    2797053914892766;
    1294849661688697 ].
(** quadrature.py:360-369 *)
Definition gauss_8_nodes : list Z :=
  [ -9602898564975363;
    -7966664774136267;
    -5255324099163290;
    -1834346424956498;
    1834346424956498;
    5255324099163290;
    7966664774136267;
    9602898564975363 ].
(** quadrature.py:371-380 *)
Definition gauss_8_weights : list Z :=
  [ 1012285362903763;
    2223810344533745;
    3137066458778873;
    3626837833783620;
    3626837833783620;
    3137066458778873;
    2223810344533745;
    1012285362903763 ].
(** quadrature.py:382-392 *)
Definition gauss_9_nodes : list Z :=
  [ -9681602395076261;
    -8360311073266358;
    -6133714327005904;
    -3242534234038089;
    0;
    3242534234038089;
    6133714327005904;
    8360311073266358;
    9681602395076261 ].
(** quadrature.py:394-404 *)
Definition gauss_9_weights : list Z :=
  [ 812743883615744;
    1806481606948574;
    2606106964029354;
    3123470770400029;
    3302393550012598;
    3123470770400029;
    2606106964029354;
    1806481606948574;
    812743883615744 ].
(** quadrature.py:406-417 *)
Definition gauss_10_nodes : list Z :=
  [ -9739065285171717;
    -8650633666889845;
    -6794095682990244;
    -4333953941292472;
    -1488743389816312;
    1488743389816312;
    4333953941292472;
    6794095682990244;
    8650633666889845;
    9739065285171717 ].
(** quadrature.py:419-430 *)
Definition gauss_10_weights : list Z :=
  [ 666713443086881;
    1494513491505806;
    2190863625159820;
    2692667193099963;
    2955242247147529;
    2955242247147529;
    2692667193099963;
    2190863625159820;
    1494513491505806;
    666713443086881 ].

(** nodes_and_weights(n), quadrature.py:214-258: the last branch is an else *)
Definition nodes_and_weights_Z (n : nat) : list Z * list Z :=
  match n with
  | 1%nat => (gauss_1_nodes, gauss_1_weights)
  | 2%nat => (gauss_2_nodes, gauss_2_weights)
  | 3%nat => (gauss_3_nodes, gauss_3_weights)
  | 4%nat => (gauss_4_nodes, gauss_4_weights)
  | 5%nat => (gauss_5_nodes, gauss_5_weights)
  | 6%nat => (gauss_6_nodes, gauss_6_weights)
  | 7%nat => (gauss_7_nodes, gauss_7_weights)
  | 8%nat => (gauss_8_nodes, gauss_8_weights)
  | 9%nat => (gauss_9_nodes, gauss_9_weights)
  | _ => (gauss_10_nodes, gauss_10_weights)
  end.
Local Open Scope R_scope.
Definition ufl (z : Z) : R := IZR z / 10 ^ 16.
Definition nodes_and_weights (n : nat) : list R * list R :=
  (map ufl (fst (nodes_and_weights_Z n)), map ufl (snd (nodes_and_weights_Z n))).

(** trapezoidal_quad(n), quadrature.py:81-108, n >= 1.  w.at[0] and w.at[-1] are halved
    (for n >= 2 these are different entries). *)
Definition trapezoidal_quad (n : nat) : list R * list R :=
  if (n =? 1)%nat then ([0], [1])
  else
    let h := 1 / INR (n - 1) in
    (linspace01 n,
     map (fun i => if (i =? 0)%nat || (i =? n - 1)%nat then h / 2 else h) (seq 0 n)).

(** composite_quad(T, p), quadrature.py:111-151.  The cells are the pairs (T[i], T[i+1]). *)
Definition rescale_x (a b x : R) : R := (x + 1) / 2 * (b - a) + a.
Definition rescale_w (a b w : R) : R := w * (b - a) / 2.
Definition cells (T : list R) : list (R * R) := combine (removelast T) (tl T).
Definition composite_quad (T : list R) (p : nat) : list R * list R :=
  let (xs, ws) := nodes_and_weights p in
  (flat_map (fun ab => map (rescale_x (fst ab) (snd ab)) xs) (cells T),
   flat_map (fun ab => map (rescale_w (fst ab) (snd ab)) ws) (cells T)).

(** spectral_quad(p), quadrature.py:154-187.  None: UnboundLocalError (p = 0 or p > 10). *)
Definition spectral_quad (p : nat) : option (list R * list R) :=
  if (1 <=? p)%nat && (p <=? 10)%nat then
    let (xs, ws) := nodes_and_weights p in
    Some (map (fun x => (x + 1) / 2) xs, map (fun w => w / 2) ws)
  else None.

(** Python slice T[p:-p] with p >= 0 (for p = 0 it is T[0:0], the empty list) *)
Definition slice_pp (T : list R) (p : nat) : list R :=
  if (p =? 0)%nat then [] else firstn (length T - 2 * p) (skipn p T).

(** select_quadrature(basis, n), quadrature.py:190-211 *)
Definition select_quadrature (s : spline) (n : nat) : option (list R * list R) :=
  match sty s with
  | Clamped | Periodic => Some (composite_quad (slice_pp (sT s) (sp s)) n)
  | Fourier => Some (trapezoidal_quad (2 * n))
  | Constant => spectral_quad 1
  end.

(** QuadratureRule.__init__, quadrature.py:40-79.  jnp.meshgrid uses indexing 'xy':
    entry (j2, j1, j3) of the arrays, which have shape (n_y, n_x, n_z), is
    x_x[j1], x_y[j2], x_z[j3]; the reshape enumerates (j2, j1, j3) in C order. *)
Definition meshgrid3 {A : Type} (xs ys zs : list A) : list (A * A * A) :=
  flat_map (fun y => flat_map (fun x => map (fun z => (x, y, z)) zs) xs) ys.
Definition prod3 (t : R * R * R) : R := let '(a, b, c) := t in a * b * c.
Record quadrule := mkQuad { x_x : list R; x_y : list R; x_z : list R;
  w_x : list R; w_y : list R; w_z : list R; q_x : list (R * R * R); q_w : list R }.
Definition QuadratureRule (sr st sz : spline) (p : nat) : option quadrule :=
  match select_quadrature sr p, select_quadrature st p, select_quadrature sz p with
  | Some (xx, wx), Some (xy, wy), Some (xz, wz) =>
      Some (mkQuad xx xy xz wx wy wz (meshgrid3 xx xy xz) (map prod3 (meshgrid3 wx wy wz)))
  | _, _, _ => None
  end.
