(** C15 (batches), C36 (search grid), C46 (progress reporting). *)
From Coq Require Import List ZArith Reals Lia Lra Bool.
From Verif.Model Require Import Py Base.
From Verif.Spec Require Import Base.
From Verif.Proofs Require Base.
Import ListNotations.
Local Open Scope nat_scope.

(** ** C15 *)
(** For a positive batch size the output is the one and only cut of the stream in consecutive chunks of
    [n] items with a non-empty remainder. *)
Theorem c15_batches : forall A (l : list A) n out, (1 <= n)%Z ->
  (batch l n = Ok out <-> chunks_of (Z.to_nat n) l out).
Proof. exact @Proofs.Base.batch_iff. Qed.
Print Assumptions c15_batches.

Example c15_batches_ex :
  batch [1; 2; 3; 4; 5] 2 = Ok [[1; 2]; [3; 4]; [5]] /\ batch [1; 2; 3; 4] 2 = Ok [[1; 2]; [3; 4]]
  /\ batch (@nil nat) 2 = Ok [].
Proof. repeat split. Qed.

(** The number of batches is the length divided by [n], rounded up. *)
Theorem c15_batch_count : forall A (l : list A) n out, 1 <= n -> batch l (Z.of_nat n) = Ok out ->
  length out = (length l + n - 1) / n.
Proof. exact @Proofs.Base.batch_count. Qed.
Print Assumptions c15_batch_count.

(** Outside positive sizes: a negative size raises, size 0 silently drops the whole stream. *)
Theorem c15_negative_raises : forall A (l : list A) n, (n < 0)%Z -> batch l n = Err ValueError.
Proof. exact @Proofs.Base.batch_negative. Qed.
Print Assumptions c15_negative_raises.

Theorem c15_zero_yields_nothing : forall A (l : list A), batch l 0 = Ok [].
Proof. exact @Proofs.Base.batch_zero. Qed.
Print Assumptions c15_zero_yields_nothing.

(** ** C36 *)
Theorem c36_grid : forall h w : nat, centred_grid h w (build_grid (Z.of_nat h) (Z.of_nat w)).
Proof. exact Proofs.Base.build_grid_spec. Qed.
Print Assumptions c36_grid.

Example c36_grid_ex : build_grid 3 2 = [[(-1, -1); (-1, 0)]; [(0, -1); (0, 0)]; [(1, -1); (1, 0)]]%Z.
Proof. reflexivity. Qed.

(** Active Shape Model: when the response peaks at the centre of the window the target is left
    alone, for every positive symmetric kernel and window sides that are 1 modulo 4.  Missing for the
    full statement: other window sides (see the refutation below). *)
Theorem c36_asm_centre_partial : forall kernel h w coord target,
  (forall y x, (0 < kernel y x)%R) -> (forall y x, kernel (- y)%Z (- x)%Z = kernel y x) ->
  (coord = fst \/ coord = snd) ->
  (0 < h)%Z -> (0 < w)%Z -> (h mod 4 = 1)%Z -> (w mod 4 = 1)%Z ->
  asm_error kernel h w ((h / 2)%Z, (w / 2)%Z) coord target = 0%R.
Proof. exact Proofs.Base.asm_centre_fixed. Qed.
Print Assumptions c36_asm_centre_partial.

Example c36_asm_centre_ex : forall target,
  asm_error (fun y x => exp (- IZR (y * y + x * x) / 20)) 17 17 (8, 8)%Z fst target = 0%R.
Proof.
  intros target. apply (c36_asm_centre_partial _ 17 17); try reflexivity; auto.
  - intros; apply exp_pos.
  - intros y x. do 4 f_equal; ring.
Qed.

(** With a kernel concentrated at one entry, the error is the grid offset of the peak. *)
Theorem c36_asm_peak_partial : forall kernel c h w i j coord target,
  (0 < c)%R ->
  (forall y x, kernel y x = if ((y =? 0) && (x =? 0))%Z then c else 0%R) ->
  (coord = fst \/ coord = snd) ->
  (h mod 4 = 1)%Z -> (w mod 4 = 1)%Z -> (0 <= i < h)%Z -> (0 <= j < w)%Z ->
  asm_error kernel h w (i, j) coord target = IZR (coord (i - h / 2, j - w / 2)%Z).
Proof. exact Proofs.Base.asm_peak. Qed.
Print Assumptions c36_asm_peak_partial.

(** The half window used for the peak is one more than the half window of the grid exactly for sides
    that are 3 modulo 4 (numpy rounds halves to even, base.py floors). *)
Theorem c36_half_window : forall z,
  round_half z = (if (z mod 4 =? 3)%Z then (z / 2 + 1)%Z else (z / 2)%Z).
Proof. exact Proofs.Base.round_half_mod4. Qed.
Print Assumptions c36_half_window.

Lemma gauss_decr a b : (0 <= a)%Z -> (a < b)%Z -> (exp (- IZR b / 20) < exp (- IZR a / 20))%R.
Proof.
  intros Ha H. apply exp_increasing. apply IZR_lt in H. lra.
Qed.

(** Finding: for a 3-by-3 window and the Gaussian kernel, a response that peaks exactly at the current
    landmark pushes the landmark away. *)
Theorem c36_asm_centre_refuted : forall target,
  (asm_error (fun y x => (exp (- IZR (y * y) / 20) * exp (- IZR (x * x) / 20))%R) 3 3 (1, 1)%Z fst target < 0)%R.
Proof.
  intros target.
  apply (Proofs.Base.asm_centre_moves (fun n => exp (- IZR (Z.of_nat n * Z.of_nat n) / 20))).
  - apply exp_pos.
  - apply (gauss_decr 1 4); lia.
  - apply (gauss_decr 0 1); lia.
  - intros y x. rewrite !Nat2Z.inj_abs_nat, !Z.abs_square. reflexivity.
Qed.
Print Assumptions c36_asm_centre_refuted.

(** ** C46 *)
(** Provided menpo's own progress generator is transparent (it is external). *)
Theorem c46_print_progress : forall A (mpp : list A -> list A) (verbose : bool) l,
  (forall x, mpp x = x) -> print_progress mpp verbose l = l.
Proof. exact @Proofs.Base.print_progress_id. Qed.
Print Assumptions c46_print_progress.

Example c46_ex : print_progress (fun l => l) true [1; 2; 3] = [1; 2; 3]
  /\ print_progress (fun l => @rev nat l) false [1; 2; 3] = [1; 2; 3].
Proof. split; reflexivity. Qed.
