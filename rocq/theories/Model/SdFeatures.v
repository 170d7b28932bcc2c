(** The features of the supervised descent AAM algorithms, menpofit/aam/algorithm/sd.py: MeanTemplate 166-176, ProjectOut
    258-288, AppearanceWeights 372-399, of the masked warped image [i_m]. *)
From Verif.Model Require Import Py LinAlg.
From mathcomp Require Import all_ssreflect all_algebra.
Set Implicit Arguments.
Unset Strict Implicit.
Unset Printing Implicit Defensive.
Import GRing.Theory.
Local Open Scope ring_scope.

Section Features.
Variable F : realFieldType.
Variables (k m : nat) (I W : Type).
(** interface.warp(image).as_vector()[i_mask] with the warp of the transform. *)
Variable warp : I -> W -> res 'cV[F]_k.
(** a_bar_m, A_m and pinv_A_m. *)
Variable a_bar_m : 'cV[F]_k.
Variable A_m : 'M[F]_(k, m).
Variable pinv_A_m : 'M[F]_(m, k).
(** 174-176. *)
Definition mean_feature (im : I) (w : W) : res 'cV[F]_k := let? i_m := warp im w in Ok (i_m - a_bar_m).
(** 282-288. *)
Definition project_out_feature (im : I) (w : W) : res 'cV[F]_k :=
  let? i_m := warp im w in Ok (project_out A_m pinv_A_m (i_m - a_bar_m)).
(** 396-399 with 385-392. *)
Definition weights_feature (im : I) (w : W) : res 'cV[F]_m :=
  let? i_m := warp im w in Ok (appearance_weights pinv_A_m i_m a_bar_m).
End Features.
