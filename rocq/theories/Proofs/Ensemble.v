From Coq Require Import List Arith Bool ZArith Reals Lra Lia.
From Verif.Model Require Import Py Result Base Ensemble.
From Verif.Spec Require Import Base Ensemble.
From Verif.Proofs Require Base.
Import ListNotations.
Local Open Scope nat_scope.

(** ** The normalisation *)
Section Normalise.
  Local Open Scope R_scope.
  Lemma sumR_map A B (f : B -> R) (g : A -> B) l : sumR f (map g l) = sumR (fun x => f (g x)) l.
  Proof. unfold sumR. induction l as [|x l IH]; cbn; [reflexivity|]. now rewrite IH. Qed.
  Lemma sumR_ext A (f g : A -> R) l : (forall x, f x = g x) -> sumR f l = sumR g l.
  Proof. intros H. unfold sumR. induction l as [|x l IH]; cbn; [reflexivity|]. now rewrite H, IH. Qed.
  Lemma sumR_affine (a b : R) l : sumR (fun x => a * x + b) l = a * sumR (fun x => x) l + b * INR (length l).
  Proof.
    unfold sumR. induction l as [|x l IH]; [cbn; ring|]. cbn [length fold_right]. rewrite S_INR, IH. ring.
  Qed.
  Lemma sumR_scale A (a : R) (f : A -> R) l : sumR (fun x => a * f x) l = a * sumR f l.
  Proof. induction l as [|x l IH]; cbn; [ring|]. unfold sumR in IH. rewrite IH. ring. Qed.
  Lemma sumR_nonneg A (f : A -> R) l : (forall x, 0 <= f x) -> 0 <= sumR f l.
  Proof. intros H. induction l as [|x l IH]; cbn; [lra|]. specialize (H x). unfold sumR in IH. lra. Qed.

  Lemma centre_recoloured a b l : centre (recoloured a b l) = map (fun x => a * x) (centre l).
  Proof.
    destruct l as [|x0 r]; [reflexivity|]. set (l := x0 :: r). assert (N : INR (length l) <> 0) by (apply not_0_INR; discriminate).
    assert (M : mean (recoloured a b l) = a * mean l + b).
    { unfold mean, recoloured. rewrite sumR_map, map_length, sumR_affine. field. exact N. }
    unfold centre. rewrite M. unfold recoloured. rewrite !map_map. apply map_ext. intros. ring.
  Qed.
  Lemma norm_scale a l : 0 < a -> norm (map (fun x => a * x) l) = a * norm l.
  Proof.
    intros H. unfold norm. rewrite sumR_map, (sumR_ext _ _ (fun x => a ^ 2 * x ^ 2)) by (intros; ring). rewrite sumR_scale.
    rewrite sqrt_mult; [|apply pow2_ge_0|apply sumR_nonneg; intros; apply pow2_ge_0]. now rewrite sqrt_pow2 by lra.
  Qed.
  Lemma norm_zero l : norm l = 0 -> map (fun x => x) l = map (fun _ => 0) l.
  Proof.
    intros H. apply sqrt_eq_0 in H; [|apply sumR_nonneg; intros; apply pow2_ge_0].
    induction l as [|x l IH]; [reflexivity|]. cbn in H |- *.
    assert (0 <= sumR (fun x => x ^ 2) l) by (apply sumR_nonneg; intros; apply pow2_ge_0). unfold sumR in *. cbn in *.
    assert (0 <= x * (x * 1)) by nra. f_equal; [nra|]. apply IH. cbn. lra.
  Qed.
  (** Brightness and contrast do not matter. *)
  Lemma normalise_recoloured a b l : 0 < a -> normalise (recoloured a b l) = normalise l.
  Proof.
    intros H. unfold normalise. rewrite centre_recoloured, norm_scale by exact H.
    destruct (Req_EM_T (norm (centre l)) 0) as [E|E].
    - rewrite E. destruct (Req_EM_T (a * 0) 0) as [_|X]; [|lra]. apply norm_zero in E. rewrite map_id in E. rewrite E, map_map.
      apply map_ext. intros. ring.
    - destruct (Req_EM_T (a * norm (centre l)) 0) as [X|_]; [apply Rmult_integral in X; lra|]. rewrite map_map. apply map_ext. intros. field. lra.
  Qed.
  Lemma normalise_length l : length (normalise l) = length l.
  Proof. unfold normalise, centre. destruct (Req_EM_T _ 0); now rewrite ?map_length. Qed.
  (** One shift and one positive scale for the whole list; mean 0; norm 1 or nothing left. *)
  Lemma normalise_affine l : l <> [] -> exists m d, 0 < d /\ normalise l = map (fun x => (x - m) / d) l /\
    sumR (fun x => x) (normalise l) = 0 /\
    (sumR (fun x => x ^ 2) (normalise l) = 1 \/ Forall (fun x => x = 0) (normalise l)).
  Proof.
    intros N. assert (N' : INR (length l) <> 0) by (apply not_0_INR; destruct l; [congruence|discriminate]).
    assert (Z : sumR (fun x => x) (centre l) = 0).
    { unfold centre. rewrite sumR_map, (sumR_ext _ _ (fun x => 1 * x + - mean l)) by (intros; ring).
      rewrite sumR_affine. unfold mean. field. exact N'. }
    unfold normalise. exists (mean l). destruct (Req_EM_T (norm (centre l)) 0) as [E|E].
    - exists 1. split; [lra|]. split; [|split; [exact Z|]].
      + unfold centre. apply map_ext. intros. field.
      + right. apply norm_zero in E. rewrite map_id in E. rewrite E. apply Forall_forall. intros x Hx. apply in_map_iff in Hx.
        now destruct Hx as (y & <- & _).
    - assert (P : 0 <= norm (centre l)) by apply sqrt_pos. exists (norm (centre l)). split; [lra|]. split; [|split].
      + unfold centre at 2. rewrite map_map. reflexivity.
      + rewrite sumR_map, (sumR_ext _ _ (fun x => / norm (centre l) * x)) by (intros; field; exact E). rewrite sumR_scale, Z. ring.
      + left. rewrite sumR_map, (sumR_ext _ _ (fun x => (/ norm (centre l)) ^ 2 * x ^ 2)) by (intros; field; exact E). rewrite sumR_scale.
        assert (Q : sumR (fun x => x ^ 2) (centre l) = norm (centre l) ^ 2).
        { unfold norm. rewrite pow2_sqrt; [reflexivity|]. apply sumR_nonneg. intros. apply pow2_ge_0. }
        rewrite Q. field. exact E.
  Qed.
End Normalise.
Lemma split_as_map {X} (f : X -> X) (w : list (list X)) : split_as w (map f (concat w)) = map (map f) w.
Proof.
  induction w as [|c w IH]; [reflexivity|]. cbn [split_as concat map]. rewrite map_app.
  rewrite <- (map_length f c) at 1 2. rewrite firstn_app, skipn_app, firstn_all, skipn_all, Nat.sub_diag. cbn [firstn skipn app].
  now rewrite app_nil_r, IH.
Qed.

Lemma channels_norm3 w w' : channels_recoloured w w' -> channel_normalize_norm3 w' = channel_normalize_norm3 w.
Proof.
  intros H. unfold channel_normalize_norm3. induction H as [|c c' w w' (a & b & Ha & ->) _ IH]; [reflexivity|].
  cbn. rewrite IH. f_equal. now apply normalise_recoloured.
Qed.
Lemma concat_recoloured a b w : concat (map (recoloured a b) w) = recoloured a b (concat w).
Proof. unfold recoloured. now rewrite concat_map. Qed.
Lemma split_as_lengths {X} (s s' : list (list X)) : map (@length X) s = map (@length X) s' -> forall l, split_as s l = split_as s' l.
Proof.
  revert s'. induction s as [|a s IH]; intros [|b s'] H l; cbn in *; try discriminate; [reflexivity|].
  injection H as E H. rewrite E. f_equal. now apply IH.
Qed.
Lemma joint_norm4 a b w : (0 < a)%R ->
  split_as (map (recoloured a b) w) (normalise (concat (map (recoloured a b) w))) = split_as w (normalise (concat w)).
Proof.
  intros H. rewrite concat_recoloured, normalise_recoloured by exact H. apply split_as_lengths. rewrite map_map. apply map_ext.
  intros c. unfold recoloured. apply map_length.
Qed.

(** ** mapM *)
Lemma mapM_ext {X Y} (f g : X -> res Y) l : (forall x, In x l -> f x = g x) -> mapM f l = mapM g l.
Proof.
  induction l as [|x l IH]; intros H; [reflexivity|]. cbn. rewrite (H x (or_introl eq_refl)), IH; [reflexivity|]. intros y Hy. apply H. now right.
Qed.
Lemma mapM_length {X Y} (f : X -> res Y) l ys : mapM f l = Ok ys -> length ys = length l.
Proof.
  revert ys. induction l as [|x l IH]; intros ys E; cbn in E; [injection E as <-; reflexivity|].
  destruct (f x); [|discriminate E]. cbn in E. destruct (mapM f l) as [zs|]; [|discriminate E]. injection E as <-. cbn. now rewrite (IH zs).
Qed.
Lemma mapM_nth {X Y} (f : X -> res Y) l ys k x : mapM f l = Ok ys -> nth_error l k = Some x -> exists y, f x = Ok y /\ nth_error ys k = Some y.
Proof.
  revert ys k. induction l as [|x0 l IH]; intros ys k E H; cbn in E; [destruct k; discriminate H|].
  destruct (f x0) as [y0|] eqn:E0; [|discriminate E]. cbn in E. destruct (mapM f l) as [zs|] eqn:El; [|discriminate E]. injection E as <-.
  destruct k as [|k]; cbn in H; [injection H as <-; eauto|]. exact (IH zs k eq_refl H).
Qed.
Lemma mapM_err {X Y} (f : X -> res Y) l x e : In x l -> f x = Err e -> exists e', mapM f l = Err e'.
Proof.
  induction l as [|x0 l IH]; intros H E; [destruct H|]. cbn. destruct H as [->|H].
  - rewrite E. cbn. eauto.
  - destruct (f x0) as [y|e0]; [|cbn; eauto]. cbn. destruct (IH H E) as (e' & ->). cbn. eauto.
Qed.
Lemma mapM_rel {X X' Y} (f : X -> res Y) (g : X' -> res Y) l l' : Forall2 (fun x x' => f x = g x') l l' -> mapM f l = mapM g l'.
Proof. intros H. induction H as [|x x' l l' E _ IH]; [reflexivity|]. cbn. now rewrite E, IH. Qed.

(** ** The desired response *)
Section Peak.
  Local Open Scope R_scope.
  Lemma pdf_peak cov g : 0 < cov -> g <> (0, 0)%Z -> gaussian_pdf cov g < gaussian_pdf cov (0, 0)%Z.
  Proof.
    intros Hc Hg. unfold gaussian_pdf. cbn [fst snd]. assert (0 < 2 * PI * cov) by (pose proof PI_RGT_0; nra).
    apply Rmult_lt_compat_r; [now apply Rinv_0_lt_compat|]. apply exp_increasing.
    assert (P : 0 < IZR (fst g) ^ 2 + IZR (snd g) ^ 2).
    { destruct g as [y x]. cbn. destruct (Z.eq_dec y 0) as [->|N].
      - destruct (Z.eq_dec x 0) as [->|N]; [congruence|]. apply not_0_IZR in N. assert (0 < IZR x * IZR x) by nra. nra.
      - apply not_0_IZR in N. assert (0 < IZR y * IZR y) by nra. nra. }
    unfold Rdiv. apply Rmult_lt_compat_r; [apply Rinv_0_lt_compat; lra|]. lra.
  Qed.
  Lemma response_peak h w cov t : (0 < h)%nat -> (0 < w)%nat ->
    generate_gaussian_response (h, w) cov = Ok t -> strict_peak t (Nat.div2 h) (Nat.div2 w).
  Proof.
    intros Hh Hw E. unfold generate_gaussian_response in E. destruct (Rlt_dec 0 cov) as [Hc|]; [|discriminate E]. injection E as <-.
    cbn [fst snd]. destruct (Proofs.Base.build_grid_spec h w) as (L & FL & G). set (g := build_grid _ _) in *.
    assert (X : forall i j r' x, nth_error (map (map (gaussian_pdf cov)) g) i = Some r' -> nth_error r' j = Some x ->
       x = gaussian_pdf cov (Z.of_nat i - Z.of_nat (Nat.div2 h), Z.of_nat j - Z.of_nat (Nat.div2 w))%Z).
    { intros i j r' x Hr Hx. rewrite nth_error_map in Hr. destruct (nth_error g i) as [row|] eqn:Ei; [|discriminate Hr]. injection Hr as <-.
      rewrite nth_error_map in Hx. destruct (nth_error row j) as [p|] eqn:Ej; [|discriminate Hx]. injection Hx as <-.
      assert (Li : (i < h)%nat) by (rewrite <- L; apply nth_error_Some; congruence).
      assert (Lj : (j < w)%nat).
      { rewrite Forall_forall in FL. rewrite <- (FL row (nth_error_In _ _ Ei)). apply nth_error_Some. congruence. }
      specialize (G i j Li Lj). rewrite Ei in G. cbn in G. rewrite Ej in G. injection G as ->. reflexivity. }
    assert (Li : (Nat.div2 h < h)%nat) by (apply Nat.lt_div2; lia). assert (Lj : (Nat.div2 w < w)%nat) by (apply Nat.lt_div2; lia).
    pose proof (G _ _ Li Lj) as C. destruct (nth_error g (Nat.div2 h)) as [row|] eqn:Ei; [|discriminate C]. cbn in C.
    destruct (nth_error row (Nat.div2 w)) as [p|] eqn:Ej; [|discriminate C]. injection C as ->. rewrite !Z.sub_diag in Ej.
    exists (map (gaussian_pdf cov) row), (gaussian_pdf cov (0, 0)%Z). split; [rewrite nth_error_map, Ei; reflexivity|].
    split; [rewrite nth_error_map, Ej; reflexivity|]. intros i' j' r' x Hr Hx N. rewrite (X i' j' r' x Hr Hx).
    apply pdf_peak; [exact Hc|]. intros Y. apply N. injection Y as Y1 Y2. f_equal; lia.
  Qed.
End Peak.
