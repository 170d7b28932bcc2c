(** Lemmas about shape errors. *)
From Coq Require Import String List Reals Lia Lra.
From Verif.Model Require Import Py ErrorR.
From Verif.Spec Require Import ErrorR.
Import ListNotations.
Local Open Scope R_scope.

Definition psum (f : pt -> pt -> R) (s g : shape) : R := rsum (map (fun pq => f (fst pq) (snd pq)) (combine s g)).

Lemma rsum_cons x l : rsum (x :: l) = x + rsum l. Proof. reflexivity. Qed.
Lemma psum_cons f p q s g : psum f (p :: s) (q :: g) = f p q + psum f s g. Proof. reflexivity. Qed.
Lemma psum_nonneg f : (forall p q, 0 <= f p q) -> forall s g, 0 <= psum f s g.
Proof.
  intros Hf. induction s as [|p s IH]; intros [|q g]; try apply Rle_refl. rewrite psum_cons. specialize (IH g). specialize (Hf p q). lra.
Qed.
Lemma psum_ext f f' : (forall p q, f p q = f' p q) -> forall s g, psum f s g = psum f' s g.
Proof. intros H. induction s as [|p s IH]; intros [|q g]; try reflexivity. rewrite !psum_cons, H, IH. reflexivity. Qed.
Lemma psum_swap f : forall s g, psum f s g = psum (fun p q => f q p) g s.
Proof. induction s as [|p s IH]; intros [|q g]; try reflexivity. rewrite !psum_cons, IH. reflexivity. Qed.
Lemma psum_scal f k : forall s g, psum (fun p q => k * f p q) s g = k * psum f s g.
Proof. induction s as [|p s IH]; intros [|q g]; try (unfold psum; cbn; ring). rewrite !psum_cons, IH. ring. Qed.
Lemma psum_map f (h : pt -> pt) : forall s g, psum f (map h s) (map h g) = psum (fun p q => f (h p) (h q)) s g.
Proof. induction s as [|p s IH]; intros [|q g]; try reflexivity. cbn [map]. rewrite !psum_cons, IH. reflexivity. Qed.
Lemma psum_triangle f : (forall p q r, f p r <= f p q + f q r) -> forall s t u, length s = length t -> length t = length u ->
  psum f s u <= psum f s t + psum f t u.
Proof.
  intros H. induction s as [|p s IH]; intros [|q t] [|r u] H1 H2; try discriminate; [unfold psum; cbn; lra|].
  rewrite !psum_cons. specialize (H p q r). specialize (IH t u ltac:(cbn [length] in *; lia) ltac:(cbn [length] in *; lia)). lra.
Qed.
Lemma psum_zero f : (forall p q, 0 <= f p q) -> (forall p q, f p q = 0 <-> p = q) -> forall s g, length s = length g ->
  (psum f s g = 0 <-> s = g).
Proof.
  intros Hp H0. induction s as [|p s IH]; intros [|q g] Hl; try discriminate; [split; reflexivity|].
  rewrite psum_cons. specialize (IH g ltac:(cbn [length] in *; lia)). pose proof (psum_nonneg f Hp s g). pose proof (Hp p q). split.
  - intros E. assert (E1 : f p q = 0) by lra. assert (E2 : psum f s g = 0) by lra. apply H0 in E1. apply IH in E2. congruence.
  - intros E. assert (p = q /\ s = g) as [-> ->] by (split; congruence).
    rewrite (proj2 (H0 q q) eq_refl), (proj2 IH eq_refl). ring.
Qed.

(** *** The plane *)
Definition dist (p q : pt) : R := pnorm (psub p q).
Definition dsq (p q : pt) : R := (fst p - fst q) ^ 2 + (snd p - snd q) ^ 2.
Lemma dsq_nonneg p q : 0 <= dsq p q. Proof. unfold dsq. pose proof (pow2_ge_0 (fst p - fst q)). pose proof (pow2_ge_0 (snd p - snd q)). lra. Qed.
Lemma dist_nonneg p q : 0 <= dist p q. Proof. apply sqrt_pos. Qed.
Lemma sq_zero x : x ^ 2 = 0 -> x = 0.
Proof. intros H. replace (x ^ 2) with (x * x) in H by ring. destruct (Rmult_integral _ _ H); assumption. Qed.
Lemma dsq_zero p q : dsq p q = 0 <-> p = q.
Proof.
  unfold dsq. destruct p as [a b], q as [c d]. cbn [fst snd]. split.
  - intros H. pose proof (pow2_ge_0 (a - c)). pose proof (pow2_ge_0 (b - d)).
    assert (a - c = 0) by (apply sq_zero; lra). assert (b - d = 0) by (apply sq_zero; lra). f_equal; lra.
  - intros [= -> ->]. ring.
Qed.
Lemma dist_dsq p q : dist p q = sqrt (dsq p q). Proof. reflexivity. Qed.
Lemma dist_zero p q : dist p q = 0 <-> p = q.
Proof.
  rewrite dist_dsq, <- dsq_zero. split.
  - intros H. apply sqrt_eq_0; [apply dsq_nonneg|exact H].
  - intros ->. apply sqrt_0.
Qed.
Lemma dist_sym p q : dist p q = dist q p.
Proof. unfold dist, pnorm, psub. cbn [fst snd]. f_equal. ring. Qed.
Lemma sumsq a b : 0 <= a ^ 2 + b ^ 2.
Proof. pose proof (pow2_ge_0 a). pose proof (pow2_ge_0 b). lra. Qed.
Lemma sqrt_triangle a b c d : sqrt ((a + c) ^ 2 + (b + d) ^ 2) <= sqrt (a ^ 2 + b ^ 2) + sqrt (c ^ 2 + d ^ 2).
Proof.
  pose proof (sumsq a b) as H1. pose proof (sumsq c d) as H2.
  apply Rsqr_incr_0_var; [|apply Rplus_le_le_0_compat; apply sqrt_pos].
  rewrite Rsqr_sqrt by apply sumsq. unfold Rsqr.
  pose proof (sqrt_sqrt _ H1) as E1. pose proof (sqrt_sqrt _ H2) as E2.
  assert (H3 : a * c + b * d <= sqrt (a ^ 2 + b ^ 2) * sqrt (c ^ 2 + d ^ 2)).
  { rewrite <- sqrt_mult by assumption. destruct (Rle_or_lt (a * c + b * d) 0) as [Hn|Hp].
    - apply Rle_trans with 0; [exact Hn|apply sqrt_pos].
    - apply Rsqr_incr_0_var; [|apply sqrt_pos]. rewrite Rsqr_sqrt by (apply Rmult_le_pos; assumption). unfold Rsqr.
      pose proof (pow2_ge_0 (a * d - b * c)). nra. }
  nra.
Qed.
Lemma dist_triangle p q r : dist p r <= dist p q + dist q r.
Proof.
  unfold dist, pnorm, psub. cbn [fst snd].
  replace (fst p - fst r) with ((fst p - fst q) + (fst q - fst r)) by ring.
  replace (snd p - snd r) with ((snd p - snd q) + (snd q - snd r)) by ring. apply sqrt_triangle.
Qed.

(** *** The two errors as sums *)
Lemma combine_length_eq {A B} (s : list A) (g : list B) : length s = length g -> length (combine s g) = length s.
Proof. intros H. rewrite combine_length, <- H. apply Nat.min_id. Qed.

Lemma euclidean_sum s g : length s = length g -> euclidean_error s g = Ok (psum dist s g / INR (length s)).
Proof.
  intros H. unfold euclidean_error, broadcast_sub. rewrite (proj2 (Nat.eqb_eq _ _) H). cbn [bind]. f_equal.
  unfold mean. rewrite map_map, map_length, combine_length_eq by exact H. reflexivity.
Qed.

Lemma ravel_length s : length (ravel s) = (2 * length s)%nat.
Proof. induction s as [|p s IH]; [reflexivity|]. cbn [ravel flat_map app length] in *. unfold ravel in IH. lia. Qed.
Lemma ravel_sum : forall s g, length s = length g ->
  rsum (map (fun ab => (fst ab - snd ab) ^ 2) (combine (ravel s) (ravel g))) = psum dsq s g.
Proof.
  induction s as [|p s IH]; intros [|q g] H; try discriminate; [reflexivity|].
  rewrite psum_cons, <- IH by (cbn [length] in *; lia). cbn [ravel flat_map app combine map fst snd]. rewrite !rsum_cons. unfold dsq, ravel. ring.
Qed.
Lemma rms_sum s g : length s = length g -> root_mean_square_error s g = Ok (sqrt (psum dsq s g / INR (2 * length s))).
Proof.
  intros H. unfold root_mean_square_error. rewrite (proj2 (Nat.eqb_eq _ _) H). do 2 f_equal.
  unfold mean. rewrite ravel_sum by exact H. rewrite map_length, combine_length_eq, ravel_length by (rewrite !ravel_length; congruence). reflexivity.
Qed.

Lemma INR_pos n : (1 <= n)%nat -> 0 < INR n.
Proof. intros. apply lt_0_INR. lia. Qed.

(** *** Minkowski for the sum of squares *)
Lemma cauchy (a b c : R) : 0 <= a -> 0 <= b -> (forall t u : R, 0 <= t ^ 2 * a + 2 * (t * u) * c + u ^ 2 * b) -> c ^ 2 <= a * b.
Proof.
  intros Ha Hb H. destruct (Rle_lt_or_eq_dec 0 b Hb) as [Hb'|<-].
  - specialize (H b (- c)). assert (0 <= b * (a * b - c ^ 2)) by nra.
    apply Rmult_le_reg_l with b; [exact Hb'|]. nra.
  - destruct (Rle_lt_or_eq_dec 0 a Ha) as [Ha'|<-].
    + specialize (H (- c) a). assert (0 <= a * (- c ^ 2)) by nra. apply Rmult_le_reg_l with a; [exact Ha'|]. nra.
    + pose proof (H 1 c). pose proof (H 1 (- c)). nra.
Qed.

Lemma minkowski : forall s t u, length s = length t -> length t = length u ->
  sqrt (psum dsq s u) <= sqrt (psum dsq s t) + sqrt (psum dsq t u).
Proof.
  intros s t u H1 H2.
  set (A := psum dsq s t). set (B := psum dsq t u).
  assert (HA : 0 <= A) by (apply psum_nonneg, dsq_nonneg). assert (HB : 0 <= B) by (apply psum_nonneg, dsq_nonneg).
  assert (HC : exists c, psum dsq s u = A + 2 * c + B /\ forall x y, 0 <= x ^ 2 * A + 2 * (x * y) * c + y ^ 2 * B).
  { unfold A, B. clear A B HA HB. revert t u H1 H2. induction s as [|p s IH]; intros [|q t] [|r u] H1 H2; try discriminate.
    - exists 0. unfold psum. cbn. split; [ring|]. intros. lra.
    - destruct (IH t u ltac:(cbn [length] in *; lia) ltac:(cbn [length] in *; lia)) as (c & E & Hc).
      exists (c + ((fst p - fst q) * (fst q - fst r) + (snd p - snd q) * (snd q - snd r))). rewrite !psum_cons, E.
      assert (D : forall a b, dsq a b = (fst a - fst b) ^ 2 + (snd a - snd b) ^ 2) by reflexivity. rewrite !D. split; [ring|].
      intros x y. specialize (Hc x y).
      pose proof (sumsq (x * (fst p - fst q) + y * (fst q - fst r)) (x * (snd p - snd q) + y * (snd q - snd r))).
      match goal with |- 0 <= ?g => replace g with ((x ^ 2 * psum dsq s t + 2 * (x * y) * c + y ^ 2 * psum dsq t u)
        + ((x * (fst p - fst q) + y * (fst q - fst r)) ^ 2 + (x * (snd p - snd q) + y * (snd q - snd r)) ^ 2)) by ring end.
      lra. }
  destruct HC as (c & -> & Hc). pose proof (cauchy A B c HA HB Hc) as CS.
  assert (HS : 0 <= A + 2 * c + B) by (specialize (Hc 1 1); nra).
  apply Rsqr_incr_0_var; [|apply Rplus_le_le_0_compat; apply sqrt_pos].
  rewrite Rsqr_sqrt by exact HS. unfold Rsqr. pose proof (sqrt_sqrt _ HA) as E1. pose proof (sqrt_sqrt _ HB) as E2.
  assert (H3 : c <= sqrt A * sqrt B).
  { rewrite <- sqrt_mult by assumption. destruct (Rle_or_lt c 0) as [Hn|Hp].
    - apply Rle_trans with 0; [exact Hn|apply sqrt_pos].
    - apply Rsqr_incr_0_var; [|apply sqrt_pos]. rewrite Rsqr_sqrt by nra. unfold Rsqr. nra. }
  nra.
Qed.

(** *** Bounding boxes *)
Lemma fold_max_add c : forall l x, fold_left Rmax (map (fun a => a + c) l) (x + c) = fold_left Rmax l x + c.
Proof.
  induction l as [|y l IH]; intros x; [reflexivity|]. cbn [map fold_left]. rewrite <- IH. f_equal.
  unfold Rmax. destruct (Rle_dec (x + c) (y + c)), (Rle_dec x y); lra.
Qed.
Lemma fold_min_add c : forall l x, fold_left Rmin (map (fun a => a + c) l) (x + c) = fold_left Rmin l x + c.
Proof.
  induction l as [|y l IH]; intros x; [reflexivity|]. cbn [map fold_left]. rewrite <- IH. f_equal.
  unfold Rmin. destruct (Rle_dec (x + c) (y + c)), (Rle_dec x y); lra.
Qed.
Lemma fold_max_scal k : 0 <= k -> forall l x, fold_left Rmax (map (fun a => k * a) l) (k * x) = k * fold_left Rmax l x.
Proof.
  intros Hk. induction l as [|y l IH]; intros x; [reflexivity|]. cbn [map fold_left]. rewrite <- IH. f_equal.
  unfold Rmax. destruct (Rle_dec (k * x) (k * y)), (Rle_dec x y); try reflexivity; nra.
Qed.
Lemma fold_min_scal k : 0 <= k -> forall l x, fold_left Rmin (map (fun a => k * a) l) (k * x) = k * fold_left Rmin l x.
Proof.
  intros Hk. induction l as [|y l IH]; intros x; [reflexivity|]. cbn [map fold_left]. rewrite <- IH. f_equal.
  unfold Rmin. destruct (Rle_dec (k * x) (k * y)), (Rle_dec x y); try reflexivity; nra.
Qed.
Lemma fold_max_opp : forall l x, fold_left Rmax (map Ropp l) (- x) = - fold_left Rmin l x.
Proof.
  induction l as [|y l IH]; intros x; [reflexivity|]. cbn [map fold_left]. rewrite <- IH. f_equal.
  unfold Rmax, Rmin. destruct (Rle_dec (- x) (- y)), (Rle_dec x y); lra.
Qed.
Lemma fold_min_opp : forall l x, fold_left Rmin (map Ropp l) (- x) = - fold_left Rmax l x.
Proof.
  induction l as [|y l IH]; intros x; [reflexivity|]. cbn [map fold_left]. rewrite <- IH. f_equal.
  unfold Rmax, Rmin. destruct (Rle_dec (- x) (- y)), (Rle_dec x y); lra.
Qed.
Definition range (l : list R) : R := maxl l - minl l.
Lemma range_add c l : range (map (fun a => a + c) l) = range l.
Proof. destruct l as [|x l]; [reflexivity|]. unfold range. cbn [map maxl minl]. rewrite fold_max_add, fold_min_add. ring. Qed.
Lemma range_scal_pos k l : 0 <= k -> range (map (fun a => k * a) l) = k * range l.
Proof. intros Hk. destruct l as [|x l]; [unfold range; cbn; ring|]. unfold range. cbn [map maxl minl]. rewrite fold_max_scal, fold_min_scal by exact Hk. ring. Qed.
Lemma range_opp l : range (map Ropp l) = range l.
Proof. destruct l as [|x l]; [reflexivity|]. unfold range. cbn [map maxl minl]. rewrite fold_max_opp, fold_min_opp. ring. Qed.
Lemma range_scal k l : range (map (fun a => k * a) l) = Rabs k * range l.
Proof.
  destruct (Rle_or_lt 0 k) as [Hk|Hk].
  - rewrite Rabs_right by lra. apply range_scal_pos, Hk.
  - rewrite Rabs_left by lra. rewrite <- range_scal_pos by lra. rewrite <- range_opp, map_map. f_equal. apply map_ext. intros. ring.
Qed.
Lemma fold_max_ge : forall l x, x <= fold_left Rmax l x.
Proof. induction l as [|y l IH]; intros x; [apply Rle_refl|]. cbn. eapply Rle_trans; [apply Rmax_l|apply IH]. Qed.
Lemma fold_min_le : forall l x, fold_left Rmin l x <= x.
Proof. induction l as [|y l IH]; intros x; [apply Rle_refl|]. cbn. eapply Rle_trans; [apply IH|apply Rmin_l]. Qed.
Lemma range_nonneg l : 0 <= range l.
Proof. destruct l as [|x l]; [unfold range; cbn; lra|]. unfold range. cbn [maxl minl]. pose proof (fold_max_ge l x). pose proof (fold_min_le l x). lra. Qed.

Lemma height_translate v s : height (translate v s) = height s.
Proof. unfold height, translate. rewrite map_map. cbn [fst]. rewrite <- (map_map fst (fun a => a + fst v)). apply range_add. Qed.
Lemma width_translate v s : width (translate v s) = width s.
Proof. unfold width, translate. rewrite map_map. cbn [snd]. rewrite <- (map_map snd (fun a => a + snd v)). apply range_add. Qed.
Lemma height_scale k s : height (scale_shape k s) = Rabs k * height s.
Proof. unfold height, scale_shape. rewrite map_map. cbn [fst]. rewrite <- (map_map fst (fun a => k * a)). apply range_scal. Qed.
Lemma width_scale k s : width (scale_shape k s) = Rabs k * width s.
Proof. unfold width, scale_shape. rewrite map_map. cbn [snd]. rewrite <- (map_map snd (fun a => k * a)). apply range_scal. Qed.
Lemma height_nonneg s : 0 <= height s. Proof. apply range_nonneg. Qed.
Lemma width_nonneg s : 0 <= width s. Proof. apply range_nonneg. Qed.

Lemma dsq_translate (v p q : pt) : dsq (fst p + fst v, snd p + snd v) (fst q + fst v, snd q + snd v) = dsq p q.
Proof. unfold dsq. cbn [fst snd]. ring. Qed.
Lemma dist_translate (v p q : pt) : dist (fst p + fst v, snd p + snd v) (fst q + fst v, snd q + snd v) = dist p q.
Proof. rewrite !dist_dsq, dsq_translate. reflexivity. Qed.
Lemma dsq_scale k p q : dsq (k * fst p, k * snd p) (k * fst q, k * snd q) = k ^ 2 * dsq p q.
Proof. unfold dsq. cbn [fst snd]. ring. Qed.
Lemma sqrt_sq k : sqrt (k ^ 2) = Rabs k.
Proof. rewrite <- sqrt_Rsqr_abs. f_equal. unfold Rsqr. ring. Qed.
Lemma dist_scale k p q : dist (k * fst p, k * snd p) (k * fst q, k * snd q) = Rabs k * dist p q.
Proof. rewrite !dist_dsq, dsq_scale, sqrt_mult, sqrt_sq; [reflexivity|nra|apply dsq_nonneg]. Qed.
(** Rotations and reflections. *)
Lemma dsq_rotate a b p q : a ^ 2 + b ^ 2 = 1 ->
  dsq (a * fst p - b * snd p, b * fst p + a * snd p) (a * fst q - b * snd q, b * fst q + a * snd q) = dsq p q.
Proof.
  intros H. unfold dsq. cbn [fst snd].
  transitivity ((a ^ 2 + b ^ 2) * ((fst p - fst q) ^ 2 + (snd p - snd q) ^ 2)); [ring|]. rewrite H. ring.
Qed.

Lemma dist_rotate a b p q : a ^ 2 + b ^ 2 = 1 ->
  dist (a * fst p - b * snd p, b * fst p + a * snd p) (a * fst q - b * snd q, b * fst q + a * snd q) = dist p q.
Proof. intros H. rewrite !dist_dsq, dsq_rotate by exact H. reflexivity. Qed.

(** *** Metrics *)
Lemma euclidean_metric : shape_metric (fun s t e => euclidean_error s t = Ok e).
Proof.
  intros s t u Hne H1 H2.
  assert (Hn : 0 < INR (length s)) by (apply INR_pos; destruct s; [congruence|cbn; lia]).
  assert (Hi : 0 < / INR (length s)) by (apply Rinv_0_lt_compat; exact Hn).
  exists (psum dist s t / INR (length s)), (psum dist t s / INR (length s)), (psum dist t u / INR (length s)), (psum dist s u / INR (length s)).
  repeat split.
  - apply euclidean_sum, H1.
  - rewrite H1 at 1. apply euclidean_sum. congruence.
  - rewrite H1. apply euclidean_sum, H2.
  - apply euclidean_sum. congruence.
  - apply Rmult_le_pos; [apply psum_nonneg, dist_nonneg|lra].
  - intros E. apply (psum_zero dist dist_nonneg dist_zero s t H1). unfold Rdiv in E. apply Rmult_integral in E. destruct E; [assumption|lra].
  - intros E. apply (psum_zero dist dist_nonneg dist_zero s t H1) in E. rewrite E. unfold Rdiv. ring.
  - f_equal. rewrite psum_swap. apply psum_ext. intros. apply dist_sym.
  - unfold Rdiv. rewrite <- Rmult_plus_distr_r. apply Rmult_le_compat_r; [lra|]. apply psum_triangle; [apply dist_triangle|assumption|assumption].
Qed.

Lemma rms_metric : shape_metric (fun s t e => root_mean_square_error s t = Ok e).
Proof.
  intros s t u Hne H1 H2.
  assert (Hn : 0 < INR (2 * length s)) by (apply INR_pos; destruct s; [congruence|cbn; lia]).
  assert (Hi : 0 < / INR (2 * length s)) by (apply Rinv_0_lt_compat; exact Hn).
  exists (sqrt (psum dsq s t / INR (2 * length s))), (sqrt (psum dsq t s / INR (2 * length s))),
    (sqrt (psum dsq t u / INR (2 * length s))), (sqrt (psum dsq s u / INR (2 * length s))).
  assert (Hp : forall a b, 0 <= psum dsq a b) by (intros; apply psum_nonneg, dsq_nonneg).
  repeat split.
  - apply rms_sum, H1.
  - rewrite H1 at 1. apply rms_sum. congruence.
  - rewrite H1. apply rms_sum, H2.
  - apply rms_sum. congruence.
  - apply sqrt_pos.
  - intros E. apply (psum_zero dsq dsq_nonneg dsq_zero s t H1). apply sqrt_eq_0 in E; [|apply Rmult_le_pos; [apply Hp|lra]].
    unfold Rdiv in E. apply Rmult_integral in E. destruct E; [assumption|lra].
  - intros E. apply (psum_zero dsq dsq_nonneg dsq_zero s t H1) in E. rewrite E. unfold Rdiv. rewrite Rmult_0_l. apply sqrt_0.
  - f_equal. f_equal. rewrite psum_swap. apply psum_ext. intros p q. unfold dsq. ring.
  - unfold Rdiv. rewrite !sqrt_mult by (try apply Hp; lra). rewrite <- Rmult_plus_distr_r.
    apply Rmult_le_compat_r; [apply sqrt_pos|]. apply minkowski; assumption.
Qed.

(** *** Effect of similarity transforms *)
Lemma euclidean_translate v s t : length s = length t -> euclidean_error (translate v s) (translate v t) = euclidean_error s t.
Proof.
  intros H. rewrite !euclidean_sum by (unfold translate; rewrite ?map_length; exact H). unfold translate. rewrite psum_map, map_length.
  do 2 f_equal. apply psum_ext. intros. apply dist_translate.
Qed.
Lemma rms_translate v s t : length s = length t -> root_mean_square_error (translate v s) (translate v t) = root_mean_square_error s t.
Proof.
  intros H. rewrite !rms_sum by (unfold translate; rewrite ?map_length; exact H). unfold translate. rewrite psum_map, map_length.
  do 3 f_equal. apply psum_ext. intros. apply dsq_translate.
Qed.
Lemma euclidean_rotate a b s t : a ^ 2 + b ^ 2 = 1 -> length s = length t -> euclidean_error (rotate a b s) (rotate a b t) = euclidean_error s t.
Proof.
  intros Hab H. rewrite !euclidean_sum by (unfold rotate; rewrite ?map_length; exact H). unfold rotate. rewrite psum_map, map_length.
  do 2 f_equal. apply psum_ext. intros. apply dist_rotate, Hab.
Qed.
Lemma rms_rotate a b s t : a ^ 2 + b ^ 2 = 1 -> length s = length t -> root_mean_square_error (rotate a b s) (rotate a b t) = root_mean_square_error s t.
Proof.
  intros Hab H. rewrite !rms_sum by (unfold rotate; rewrite ?map_length; exact H). unfold rotate. rewrite psum_map, map_length.
  do 3 f_equal. apply psum_ext. intros. apply dsq_rotate, Hab.
Qed.
Lemma euclidean_dilate k s t : length s = length t ->
  exists e, euclidean_error s t = Ok e /\ euclidean_error (dilate k s) (dilate k t) = Ok (Rabs k * e).
Proof.
  intros H. rewrite !euclidean_sum by (unfold dilate; rewrite ?map_length; exact H). eexists. split; [reflexivity|].
  unfold dilate. rewrite psum_map, map_length. f_equal. rewrite (psum_ext _ (fun p q => Rabs k * dist p q)) by (intros; apply dist_scale).
  rewrite psum_scal. unfold Rdiv. ring.
Qed.
Lemma rms_dilate k s t : length s = length t ->
  exists e, root_mean_square_error s t = Ok e /\ root_mean_square_error (dilate k s) (dilate k t) = Ok (Rabs k * e).
Proof.
  intros H. rewrite !rms_sum by (unfold dilate; rewrite ?map_length; exact H). eexists. split; [reflexivity|].
  unfold dilate. rewrite psum_map, map_length. f_equal. rewrite (psum_ext _ (fun p q => k ^ 2 * dsq p q)) by (intros; apply dsq_scale).
  rewrite psum_scal. unfold Rdiv. rewrite Rmult_assoc, sqrt_mult_alt by apply pow2_ge_0. rewrite sqrt_sq. reflexivity.
Qed.

Lemma height_dilate k s : height (dilate k s) = Rabs k * height s. Proof. apply (height_scale k s). Qed.
Lemma width_dilate k s : width (dilate k s) = Rabs k * width s. Proof. apply (width_scale k s). Qed.
Lemma diagonal_dilate k s : bb_diagonal (dilate k s) = Rabs k * bb_diagonal s.
Proof.
  unfold bb_diagonal. rewrite height_dilate, width_dilate.
  replace ((Rabs k * width s) ^ 2 + (Rabs k * height s) ^ 2) with (Rabs k ^ 2 * (width s ^ 2 + height s ^ 2)) by ring.
  rewrite sqrt_mult_alt by apply pow2_ge_0. rewrite sqrt_sq, Rabs_Rabsolu. reflexivity.
Qed.

(** *** Extents *)
Lemma fold_max_in : forall l x, In (fold_left Rmax l x) (x :: l).
Proof.
  induction l as [|y l IH]; intros x; [left; reflexivity|]. cbn [fold_left]. destruct (IH (Rmax x y)) as [E|E].
  - rewrite <- E. unfold Rmax. destruct (Rle_dec x y); [right; left|left]; reflexivity.
  - right. right. exact E.
Qed.
Lemma fold_min_in : forall l x, In (fold_left Rmin l x) (x :: l).
Proof.
  induction l as [|y l IH]; intros x; [left; reflexivity|]. cbn [fold_left]. destruct (IH (Rmin x y)) as [E|E].
  - rewrite <- E. unfold Rmin. destruct (Rle_dec x y); [left|right; left]; reflexivity.
  - right. right. exact E.
Qed.
Lemma fold_max_ub : forall l x a, In a (x :: l) -> a <= fold_left Rmax l x.
Proof.
  induction l as [|y l IH]; intros x a [->|Hin]; [apply Rle_refl|destruct Hin|apply fold_max_ge|]. cbn [fold_left].
  destruct Hin as [->|Hin]; [eapply Rle_trans; [apply Rmax_r|apply fold_max_ge]|apply IH; right; exact Hin].
Qed.
Lemma fold_min_lb : forall l x a, In a (x :: l) -> fold_left Rmin l x <= a.
Proof.
  induction l as [|y l IH]; intros x a [->|Hin]; [apply Rle_refl|destruct Hin|apply fold_min_le|]. cbn [fold_left].
  destruct Hin as [->|Hin]; [eapply Rle_trans; [apply fold_min_le|apply Rmin_r]|apply IH; right; exact Hin].
Qed.
Lemma range_extent (axis : pt -> R) s : s <> [] -> extent axis s (range (map axis s)).
Proof.
  destruct s as [|p0 s]; [congruence|]. intros _. unfold range. cbn [map maxl minl]. split.
  - intros p q Hp Hq. apply (in_map axis) in Hp. apply (in_map axis) in Hq. cbn [map] in Hp, Hq.
    apply fold_max_ub in Hp. apply fold_min_lb in Hq. lra.
  - pose proof (fold_max_in (map axis s) (axis p0)) as Hp. pose proof (fold_min_in (map axis s) (axis p0)) as Hq.
    change (axis p0 :: map axis s) with (map axis (p0 :: s)) in Hp, Hq. apply in_map_iff in Hp. apply in_map_iff in Hq.
    destruct Hp as (p & Ep & Hp). destruct Hq as (q & Eq & Hq). exists p, q. rewrite Ep, Eq. auto.
Qed.

(** *** Mean shape *)
Lemma add_shapes_length s t : length s = length t -> length (add_shapes s t) = length s.
Proof. intros H. unfold add_shapes. rewrite map_length, combine_length_eq; auto. Qed.
Lemma add_shapes_nth : forall s t i, length s = length t ->
  nth i (add_shapes s t) (0, 0) = padd (nth i s (0, 0)) (nth i t (0, 0)).
Proof.
  induction s as [|p s IH]; intros [|q t] i H; try discriminate.
  - cbn. destruct i; unfold padd; cbn; f_equal; ring.
  - destruct i as [|i]; [reflexivity|]. cbn [nth]. rewrite <- IH by (cbn [length] in H; lia). reflexivity.
Qed.
Lemma fold_add_length : forall r s, Forall (fun t => length t = length s) r -> length (fold_left add_shapes r s) = length s.
Proof.
  induction r as [|t r IH]; intros s H; [reflexivity|]. inversion H as [|? ? H1 H2]; subst. cbn [fold_left].
  assert (L : length (add_shapes s t) = length s) by (apply add_shapes_length; congruence).
  rewrite IH; [exact L|]. rewrite L. exact H2.
Qed.
Lemma fold_add_nth i : forall r s, Forall (fun t => length t = length s) r ->
  fst (nth i (fold_left add_shapes r s) (0, 0)) = fold_right (fun s a => fst (nth i s (0, 0)) + a) 0 (s :: r) /\
  snd (nth i (fold_left add_shapes r s) (0, 0)) = fold_right (fun s a => snd (nth i s (0, 0)) + a) 0 (s :: r).
Proof.
  induction r as [|t r IH]; intros s H; [cbn; split; ring|]. inversion H as [|? ? H1 H2]; subst. cbn [fold_left].
  assert (L : length (add_shapes s t) = length s) by (apply add_shapes_length; congruence).
  destruct (IH (add_shapes s t)) as [E1 E2]; [rewrite L; exact H2|]. rewrite E1, E2. cbn [fold_right].
  rewrite add_shapes_nth by congruence. unfold padd. cbn [fst snd]. split; ring.
Qed.
Lemma mean_pointcloud_spec shapes m : mean_pointcloud shapes = Ok m -> mean_of shapes m.
Proof.
  unfold mean_pointcloud. destruct shapes as [|s r]; [discriminate|].
  destruct (forallb (fun t => Nat.eqb (length t) (length s)) r) eqn:E; [|discriminate]. intros H.
  assert (HF : Forall (fun t : shape => length t = length s) r).
  { apply Forall_forall. intros t Ht. rewrite forallb_forall in E. apply Nat.eqb_eq, E, Ht. }
  assert (Em : m = scale_shape (/ INR (length (s :: r))) (fold_left add_shapes r s)) by congruence. subst m.
  assert (Hn : INR (length (s :: r)) <> 0) by (apply not_0_INR; discriminate).
  assert (L : length (scale_shape (/ INR (length (s :: r))) (fold_left add_shapes r s)) = length s).
  { unfold scale_shape. rewrite map_length. apply fold_add_length, HF. }
  split.
  - rewrite L. constructor; [reflexivity|exact HF].
  - intros i p Hp. unfold scale_shape in Hp. rewrite nth_error_map in Hp.
    destruct (nth_error (fold_left add_shapes r s) i) as [q|] eqn:Eq; [|discriminate]. cbn [option_map] in Hp.
    assert (Ep : p = (/ INR (length (s :: r)) * fst q, / INR (length (s :: r)) * snd q)) by congruence. subst p. cbn [fst snd].
    destruct (fold_add_nth i r s HF) as [E1 E2]. rewrite (nth_error_nth _ _ (0, 0) Eq) in E1, E2.
    rewrite <- E1, <- E2. split; field; exact Hn.
Qed.
