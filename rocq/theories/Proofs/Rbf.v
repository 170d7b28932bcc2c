From Coq Require Import Reals Lra Lia.
From Coquelicot Require Import Coquelicot.
From Verif.Model Require Import Rbf.
From Verif.Spec Require Import Rbf.
Local Open Scope R_scope.

Definition sq (d : nat) (x c : nat -> R) : R := coords d (fun k => (x k - c k) * (x k - c k)).
Lemma sq_nonneg d x c : 0 <= sq d x c.
Proof. unfold sq. induction d as [|d IH]; cbn; [lra|]. pose proof (Rle_0_sqr (x d - c d)) as H. unfold Rsqr in H. lra. Qed.
Lemma coords_ext d f g : (forall k, (k < d)%nat -> f k = g k) -> coords d f = coords d g.
Proof. induction d as [|d IH]; intros H; cbn; [reflexivity|]. rewrite IH by (intros; apply H; lia). rewrite (H d) by lia. reflexivity. Qed.
Lemma sq_zero d x c : sq d x c = 0 -> forall k, (k < d)%nat -> x k = c k.
Proof.
  induction d as [|d IH]; intros H k K; [lia|]. unfold sq in *. cbn in H.
  pose proof (sq_nonneg d x c) as P. unfold sq in P. pose proof (Rle_0_sqr (x d - c d)) as Q. unfold Rsqr in Q.
  destruct (Nat.eq_dec k d) as [->|N].
  - assert (E : (x d - c d) * (x d - c d) = 0) by lra. apply Rmult_integral in E. lra.
  - apply IH; [lra|lia].
Qed.
(** One coordinate moves. *)
Lemma sq_with d x c l t : (l < d)%nat -> sq d (with_coord x l t) c = (t - c l) * (t - c l) + (sq d x c - (x l - c l) * (x l - c l)).
Proof.
  unfold sq. induction d as [|d IH]; intros L; [lia|]. cbn. destruct (Nat.eq_dec l d) as [E|N].
  - subst l. rewrite (coords_ext d _ (fun k => (x k - c k) * (x k - c k))).
    + unfold with_coord. rewrite Nat.eqb_refl. lra.
    + intros k K. unfold with_coord. replace (Nat.eqb k d) with false by (symmetry; apply Nat.eqb_neq; lia). reflexivity.
  - rewrite IH by lia. unfold with_coord at 1 2. replace (Nat.eqb d l) with false by (symmetry; apply Nat.eqb_neq; lia). lra.
Qed.
Lemma with_self x l : forall k, with_coord x l (x l) k = x k.
Proof. intros k. unfold with_coord. destruct (Nat.eqb_spec k l); congruence. Qed.
Lemma rest_nonneg d x c l : (l < d)%nat -> 0 <= sq d x c - (x l - c l) * (x l - c l).
Proof.
  intros L. pose proof (sq_nonneg d (with_coord x l (c l)) c) as H. rewrite sq_with in H by exact L. lra.
Qed.
Lemma distance_sq d x c : distance d x c * distance d x c = sq d x c.
Proof. apply sqrt_sqrt. apply sq_nonneg. Qed.
Lemma distance0 d x c : distance d x c = 0 <-> sq d x c = 0.
Proof.
  split; intros H.
  - rewrite <- distance_sq, H. lra.
  - unfold distance. change (coords _ _) with (sq d x c). rewrite H. apply sqrt_0.
Qed.

(** The kernels in the squared distance. *)
Definition u1 (r : R) : R := if Req_EM_T r 0 then 0 else r * ln (sqrt r).
Lemma r2logr_u d x c : r2logr d x c = u1 (sq d x c).
Proof.
  unfold r2logr, u1. destruct (Req_EM_T (distance d x c) 0) as [E|E]; destruct (Req_EM_T (sq d x c) 0) as [E'|E']; try reflexivity.
  - apply distance0 in E. contradiction.
  - apply distance0 in E'. contradiction.
  - rewrite distance_sq. reflexivity.
Qed.
Lemma r2logr2_twice d x c : r2logr2 d x c = 2 * r2logr d x c.
Proof. unfold r2logr2, r2logr. destruct (Req_EM_T _ _); lra. Qed.

Lemma u1_derive r : 0 < r -> is_derive u1 r (ln (sqrt r) + / 2).
Proof.
  intros P. apply (is_derive_ext_loc (fun r => r * ln (sqrt r))).
  - exists (mkposreal r P). intros y B. unfold u1. destruct (Req_EM_T y 0) as [E|E]; [|reflexivity].
    subst y. unfold ball in B. cbn in B. unfold AbsRing_ball, abs, minus, plus, opp in B. cbn in B.
    rewrite Rabs_left in B; lra.
  - pose proof (sqrt_lt_R0 r P) as S. auto_derive; [repeat split; assumption|].
    rewrite <- (sqrt_sqrt r) at 2 by lra. field. lra.
Qed.
(** |t ln |t|| <= 2 sqrt |t|: the kernel is flat at the centre. *)
Lemma ln_bound s : 0 < s -> s < 1 -> Rabs (s * s * ln s) <= 2 * (s * sqrt s).
Proof.
  intros P L. pose proof (sqrt_lt_R0 s P) as Q. pose proof (sqrt_sqrt s (Rlt_le _ _ P)) as E.
  assert (H : - ln (sqrt s) <= / sqrt s).
  { rewrite <- ln_Rinv by exact Q. pose proof (exp_ineq1 (ln (/ sqrt s))) as I.
    destruct (Req_dec (ln (/ sqrt s)) 0) as [Z|Z].
    - rewrite Z. left. apply Rinv_0_lt_compat. exact Q.
    - specialize (I Z). rewrite exp_ln in I by (apply Rinv_0_lt_compat; exact Q). lra. }
  assert (LN : ln s = 2 * ln (sqrt s)).
  { rewrite <- E at 1. rewrite ln_mult by exact Q. lra. }
  assert (S1 : sqrt s < 1) by (rewrite <- sqrt_1; apply sqrt_lt_1; lra).
  assert (N : ln s < 0) by (rewrite <- ln_1; apply ln_increasing; lra).
  rewrite Rabs_left.
  - rewrite LN. replace (- (s * s * (2 * ln (sqrt s)))) with (2 * (s * (s * - ln (sqrt s)))) by lra.
    apply Rmult_le_compat_l; [lra|]. apply Rmult_le_compat_l; [lra|].
    replace (sqrt s) with (s * / sqrt s) at 2.
    + apply Rmult_le_compat_l; lra.
    + rewrite <- E at 1. field. lra.
  - replace 0 with (s * s * 0) by lra. apply Rmult_lt_compat_l; [apply Rmult_lt_0_compat; lra|lra].
Qed.
Lemma u1_flat a : is_derive (fun t => u1 ((t - a) * (t - a) + 0)) a 0.
Proof.
  apply is_derive_Reals. intros eps E.
  assert (D : 0 < Rmin 1 (eps * eps / 4 / 4)) by (apply Rmin_pos; [lra|]; assert (0 < eps * eps) by (apply Rmult_lt_0_compat; lra); lra).
  exists (mkposreal _ D). intros h H B. cbn in B.
  pose proof (Rmin_l 1 (eps * eps / 4 / 4)) as M1. pose proof (Rmin_r 1 (eps * eps / 4 / 4)) as M2.
  replace (a + h - a) with h by lra. replace (a - a) with 0 by lra.
  replace (0 * 0 + 0) with 0 by lra. replace (h * h + 0) with (Rabs h * Rabs h) by (rewrite <- Rabs_mult, Rabs_pos_eq; [lra|pose proof (Rle_0_sqr h) as X; unfold Rsqr in X; lra]).
  unfold u1 at 2. destruct (Req_EM_T 0 0) as [_|N]; [|lra].
  pose proof (Rabs_pos_lt h H) as P.
  unfold u1. destruct (Req_EM_T (Rabs h * Rabs h) 0) as [Z|Z]; [apply Rmult_integral in Z; lra|].
  rewrite sqrt_square by lra.
  pose proof (ln_bound (Rabs h) P ltac:(lra)) as L.
  replace ((Rabs h * Rabs h * ln (Rabs h) - 0) / h - 0) with (Rabs h * Rabs h * ln (Rabs h) / h) by (field; lra).
  unfold Rdiv. rewrite Rabs_mult, Rabs_Rinv by exact H.
  apply Rle_lt_trans with (2 * (Rabs h * sqrt (Rabs h)) * / Rabs h).
  - apply Rmult_le_compat_r; [left; apply Rinv_0_lt_compat; exact P|exact L].
  - replace (2 * (Rabs h * sqrt (Rabs h)) * / Rabs h) with (2 * sqrt (Rabs h)) by (field; lra).
    assert (Q : sqrt (Rabs h) < eps / 4 + eps / 4).
    { apply Rle_lt_trans with (sqrt (eps * eps / 4 / 4)); [apply sqrt_le_1; lra|].
      replace (eps * eps / 4 / 4) with ((eps / 4) * (eps / 4)) by field. rewrite sqrt_square by lra. lra. }
    lra.
Qed.

Lemma r2logr_ok d x c l : (l < d)%nat -> partial_derivative (fun x => r2logr d x c) x l (r2logr_d_dl d x c l).
Proof.
  intros L. unfold partial_derivative.
  set (b := sq d x c - (x l - c l) * (x l - c l)).
  apply (is_derive_ext (fun t => u1 ((t - c l) * (t - c l) + b))).
  { intros t. rewrite r2logr_u, sq_with by exact L. reflexivity. }
  assert (E : (x l - c l) * (x l - c l) + b = sq d x c) by (unfold b; lra).
  destruct (Req_dec (sq d x c) 0) as [Z|Z].
  - pose proof (sq_zero d x c Z l L) as X. assert (B : b = 0) by (unfold b; rewrite Z, X; lra).
    unfold r2logr_d_dl. rewrite X, B. replace ((c l - c l) * _) with 0 by ring. apply u1_flat.
  - pose proof (sq_nonneg d x c) as P.
    replace (r2logr_d_dl d x c l) with (2 * (x l - c l) * (ln (sqrt (sq d x c)) + / 2)).
    + evar_last.
      * apply (is_derive_comp u1 (fun t => (t - c l) * (t - c l) + b)).
        { rewrite E. apply u1_derive. lra. }
        { auto_derive; [exact I|reflexivity]. }
      * unfold scal. cbn. unfold mult. cbn. rewrite ?E. ring.
    + unfold r2logr_d_dl, safe_distance. destruct (Req_EM_T (distance d x c) 0) as [D|D]; [apply distance0 in D; contradiction|].
      unfold distance. change (coords _ _) with (sq d x c). field.
Qed.
Lemma r2logr2_ok d x c l : (l < d)%nat -> partial_derivative (fun x => r2logr2 d x c) x l (r2logr2_d_dl d x c l).
Proof.
  intros L. unfold partial_derivative. apply (is_derive_ext (fun t => 2 * r2logr d (with_coord x l t) c)).
  { intros t. symmetry. apply r2logr2_twice. }
  replace (r2logr2_d_dl d x c l) with (2 * r2logr_d_dl d x c l) by (unfold r2logr2_d_dl, r2logr_d_dl; ring).
  apply is_derive_scal. apply r2logr_ok. exact L.
Qed.
Lemma distance_sym d x c : distance d x c = distance d c x.
Proof. unfold distance. f_equal. apply coords_ext. intros. ring. Qed.
Lemma safe_sym d x c : safe_distance d x c = safe_distance d c x.
Proof. unfold safe_distance. rewrite distance_sym. reflexivity. Qed.
