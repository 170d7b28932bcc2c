(** The Lucas-Kanade algorithms of the active appearance models that keep appearance parameters, aam/algorithm/lk.py
    957-1633, as whole runs: what [start] and [step] of the loops of Model/History.v are for each of them.  Arrays are
    matrices over an ordered field (exact arithmetic); vectors are one-column matrices. *)
From Verif.Model Require Import Py LinAlg History.
From mathcomp Require Import all_ssreflect all_algebra.
Set Implicit Arguments.
Unset Strict Implicit.
Unset Printing Implicit Defensive.
Import GRing.Theory Num.Theory.
Local Open Scope ring_scope.

Section AamRuns.
Variable F : realFieldType.
(** Masked pixels, appearance components, shape parameters. *)
Variables (k m n : nat) (Image Sh : Type).
(** As in Model/History.v. *)
Variable project : Sh -> 'cV[F]_n.
Variable target_of : 'cV[F]_n -> Sh.
Variable warp : Image -> 'cV[F]_n -> res 'cV[F]_k.
Variable exceeds : Sh -> Sh -> bool.
(** _precompute 751-779: A_m, pinv_A_m, a_bar_m, s2_inv_S, s2_inv_L. *)
Variable A : 'M[F]_(k, m).
Variable P : 'M[F]_(m, k).
Variable a_bar : 'cV[F]_k.
Variable s2_inv_S : 'cV[F]_m.
Variable s2_inv_L : 'cV[F]_n.
(** _compute_jacobian: of the warped image, hence of the image and the shape parameters (1092-1096, 1271-1275, 1434-1438,
    1602-1606), or of the appearance instance, hence of the appearance parameters (1111-1115, 1290-1294, 1453-1457,
    1621-1625). *)
Variable jac : Image -> 'cV[F]_n -> 'cV[F]_m -> res 'M[F]_(k, n).
(** _update_warp: forward adds, inverse subtracts. *)
Variable sign : bool.

(** What the loops keep: i_m, c, a_m, e_m and Jdp. *)
Record inner := Inner { n_i : 'cV[F]_k; n_c : 'cV[F]_m; n_a : 'cV[F]_k; n_e : 'cV[F]_k; n_Jdp : 'cV[F]_k }.
(** appearance_model.instance(c).as_vector()[i_mask], 1018-1019: mean plus weighted components. *)
Definition instance_m (c : 'cV[F]_m) : 'cV[F]_k := a_bar + A *m c.
(** cost_closure 996-997, 1171-1172, 1345-1346: x.T.dot(x); that of Wiberg, 1511-1512, is [cost_of]. *)
Definition plain_cost (x : 'cV[F]_k) : F := (x^T *m x) 0 0.

(** Before the loop: 1011-1023, 1186-1199 and 1362-1374. *)
Definition start (img : Image) (p : 'cV[F]_n) : res inner :=
  let? i_m := warp img p in
  let c := appearance_weights P i_m a_bar in
  let a_m := instance_m c in
  Ok (Inner i_m c a_m (i_m - a_m) 0).
(** Wiberg, 1526-1538: the error is taken to the mean. *)
Definition wiberg_start (img : Image) (p : 'cV[F]_n) : res inner :=
  let? i_m := warp img p in
  let c := appearance_weights P i_m a_bar in
  Ok (Inner i_m c (instance_m c) (i_m - a_bar) 0).

(** Simultaneous, 1030-1053. *)
Definition simultaneous_turn (img : Image) (map_inference : bool) (p : 'cV[F]_n) (s : inner) : res ('cV[F]_n * inner) :=
  let? J := jac img p (n_c s) in
  let? d := simultaneous_step map_inference A J (n_e s) s2_inv_S (n_c s) s2_inv_L p in
  let '(dc, dp) := d in
  let c := n_c s + dc in
  let a_m := instance_m c in
  let p' := update sign p dp in
  let? i_m := warp img p' in
  Ok (p', Inner i_m c a_m (i_m - a_m) (n_Jdp s)).

(** Alternating, 1208-1212: the appearance increment.  With map_inference the product A_m.dot(e_m + Jdp) multiplies a k x m
    array by a vector of length k, which numpy refuses (ValueError) unless k = m. *)
Definition alternating_dc (map_inference : bool) (c : 'cV[F]_m) (x : 'cV[F]_k) : res 'cV[F]_m :=
  if map_inference then
    match @eqP _ k m with
    | ReflectT E => np_solve (A^T *m A + diag_mx s2_inv_S^T)
                      (- (\col_i (s2_inv_S i 0 * c i 0)) + castmx (E, erefl 1%N) (A *m castmx (E, erefl 1%N) x))
    | ReflectF _ => Err ValueError
    end
  else Ok (P *m x).
(** The residual given to the shape solver, 1221 (A_m.T.dot(dc), m x k by m) and 1225. *)
Definition alternating_residual (map_inference : bool) (e : 'cV[F]_k) (dc : 'cV[F]_m) : res 'cV[F]_k :=
  if map_inference then
    match @eqP _ m k with
    | ReflectT E => Ok (e - castmx (E, erefl 1%N) (A^T *m castmx (E, erefl 1%N) dc))
    | ReflectF _ => Err ValueError
    end
  else Ok (e - A *m dc).
(** Alternating, 1206-1248. *)
Definition alternating_turn (img : Image) (map_inference : bool) (p : 'cV[F]_n) (s : inner) : res ('cV[F]_n * inner) :=
  let? dc := alternating_dc map_inference (n_c s) (n_e s + n_Jdp s) in
  let? J := jac img p (n_c s) in
  let H := J^T *m J in
  let? x := alternating_residual map_inference (n_e s) dc in
  let? dp := (if map_inference then snd (solve_shape_map H J x s2_inv_L p) else solve_shape_ml H J x) in
  let c := n_c s + dc in
  let a_m := instance_m c in
  let p' := update sign p dp in
  let? i_m := warp img p' in
  Ok (p', Inner i_m c a_m (i_m - a_m) (J *m dp)).

(** ModifiedAlternating, 1381-1411. *)
Definition modified_turn (img : Image) (map_inference : bool) (p : 'cV[F]_n) (s : inner) : res ('cV[F]_n * inner) :=
  let? J := jac img p (n_c s) in
  let? dp := modified_alternating_step map_inference J (n_e s) s2_inv_L p in
  let p' := update sign p dp in
  let? i_m := warp img p' in
  let c := appearance_weights P i_m a_bar in
  let a_m := instance_m c in
  Ok (p', Inner i_m c a_m (i_m - a_m) (n_Jdp s)).

(** Wiberg, 1545-1579. *)
Definition wiberg_turn (img : Image) (map_inference : bool) (p : 'cV[F]_n) (s : inner) : res ('cV[F]_n * inner) :=
  let? J := jac img p (n_c s) in
  let? dp := project_out_step map_inference A P J (n_e s) s2_inv_L p in
  let p' := update sign p dp in
  let? i_m := warp img p' in
  let dc := P *m (i_m - n_a s + J *m dp) in
  let c := n_c s + dc in
  Ok (p', Inner i_m c (instance_m c) (i_m - a_bar) (n_Jdp s)).

(** The four [run] methods: shape parameters, appearance parameters, shapes and costs. *)
Definition result : Type := res (seq 'cV[F]_n * seq 'cV[F]_m * seq Sh * option (seq F)).
Definition simultaneous_run (c : call Image Sh) (a : app_alg 'cV[F]_n inner) :=
  app_run project target_of start simultaneous_turn exceeds n_c (fun s => plain_cost (n_e s)) c a.
Definition alternating_run (c : call Image Sh) (a : app_alg 'cV[F]_n inner) :=
  app_run project target_of start alternating_turn exceeds n_c (fun s => plain_cost (n_e s)) c a.
Definition modified_run (c : call Image Sh) (a : app_alg 'cV[F]_n inner) :=
  app_run project target_of start modified_turn exceeds n_c (fun s => plain_cost (n_e s)) c a.
Definition wiberg_run (c : call Image Sh) (a : app_alg 'cV[F]_n inner) :=
  app_run project target_of wiberg_start wiberg_turn exceeds n_c (fun s => cost_of A P (n_e s)) c a.
End AamRuns.

(** _compute_jacobian of the forward and of the inverse algorithms. *)
Definition forward_jac (F : realFieldType) k m n Image (jac_i : Image -> 'cV[F]_n -> res 'M[F]_(k, n))
  : Image -> 'cV[F]_n -> 'cV[F]_m -> res 'M[F]_(k, n) := fun img p _ => jac_i img p.
Definition inverse_jac (F : realFieldType) k m n Image (jac_a : 'cV[F]_m -> res 'M[F]_(k, n))
  : Image -> 'cV[F]_n -> 'cV[F]_m -> res 'M[F]_(k, n) := fun _ _ c => jac_a c.

(** The priors, 773-779: s2 / L behind four ones, and s2 / S, with s2 the quotient of the noise variances, the one of the
    shape model replaced by 1 when it is zero. *)
Definition noise_ratio (F : realFieldType) (shape_noise appearance_noise : F) : F :=
  appearance_noise / (if shape_noise == 0 then 1 else shape_noise).
Definition aam_shape_prior (F : realFieldType) l (shape_noise appearance_noise : F) (L : 'cV[F]_l) : 'cV[F]_(4 + l) :=
  col_mx (const_mx 1) (\col_i (noise_ratio shape_noise appearance_noise / L i 0)).
Definition aam_appearance_prior (F : realFieldType) m (shape_noise appearance_noise : F) (S : 'cV[F]_m) : 'cV[F]_m :=
  \col_i (noise_ratio shape_noise appearance_noise / S i 0).
