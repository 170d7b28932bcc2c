(** Appearance reconstructions of a fitting result: menpofit/aam/base.py 530-561 (AAM) and 1223-1254
    (PatchAAM), unified_aam_clm/base.py 456-487 (same code). *)
From Coq Require Import List.
From Verif.Model Require Import Py.
Import ListNotations.
Local Open Scope nat_scope.

Section Recon.
  (** [M]: appearance models; [C]: appearance parameter vectors; [I]: reconstructed images. *)
  Context {M C I : Type}.
  Variable instance : M -> C -> res I.            (* PCAModel.instance *)
  Variable appearance_models : list M.            (* self.appearance_models *)

  (** [l[a : a + n]]. *)
  Definition slice (a n : nat) (l : list C) : list C := firstn n (skipn a l).

  (** Lines 557-559: [for c in appearance_parameters[previous : previous + n_iters + 1]]. *)
  Definition recon_scale (cs : list C) (previous scale n_iters : nat) : res (list I) :=
    mapM (fun c => match nth_error appearance_models scale with
                   | Some am => instance am c
                   | None => Err IndexError
                   end) (slice previous (n_iters + 1) cs).

  (** Lines 555-560; line 560 is [previous = n_iters + 1]. *)
  Fixpoint recon_loop (cs : list C) (previous scale : nat) (n_iters_per_scale : list nat) : res (list I) :=
    match n_iters_per_scale with
    | [] => Ok []
    | n_iters :: rest =>
        let? here := recon_scale cs previous scale n_iters in
        let? more := recon_loop cs (n_iters + 1) (S scale) rest in
        Ok (here ++ more)
    end.
  Definition appearance_reconstructions (cs : list C) (n_iters_per_scale : list nat) : res (list I) :=
    recon_loop cs 0 0 n_iters_per_scale.
End Recon.
