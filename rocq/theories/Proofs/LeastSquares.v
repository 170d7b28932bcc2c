From Coq Require Import List Arith Reals Lia Lra.
From Verif.Model Require Import Py CorrFilter.
From Verif.Spec Require Import CorrFilter.
From Verif.Proofs Require Import CorrFilter.
Import ListNotations.
Local Open Scope R_scope.

Lemma rsum_ext {T} (f g : T -> R) l : (forall x, In x l -> f x = g x) -> rsum f l = rsum g l.
Proof.
  induction l as [|x l IH]; intros H; [reflexivity|]. unfold rsum in *. cbn [fold_right]. rewrite H by (left; reflexivity).
  f_equal. apply IH. intros y Hy. apply H. right. exact Hy.
Qed.
Lemma rsum_plus {T} (f g : T -> R) l : rsum (fun x => f x + g x) l = rsum f l + rsum g l.
Proof. induction l as [|x l IH]; cbn; [ring|]. unfold rsum in *. rewrite IH. ring. Qed.
Lemma rsum_scal {T} t (f : T -> R) l : rsum (fun x => t * f x) l = t * rsum f l.
Proof. induction l as [|x l IH]; cbn; [ring|]. unfold rsum in *. rewrite IH. ring. Qed.
Lemma rsum_zero {T} (l : list T) : rsum (fun _ => 0) l = 0.
Proof. induction l as [|x l IH]; cbn; [ring|]. unfold rsum in *. rewrite IH. ring. Qed.
Lemma rsum_swap {T U} (f : T -> U -> R) l m : rsum (fun x => rsum (f x) m) l = rsum (fun y => rsum (fun x => f x y) l) m.
Proof.
  induction l as [|x l IH].
  - symmetry. apply rsum_zero.
  - change (rsum (f x) m + rsum (fun x => rsum (f x) m) l = rsum (fun y => f x y + rsum (fun x => f x y) l) m).
    rewrite IH, <- rsum_plus. reflexivity.
Qed.
Lemma rsum_nonneg {T} (f : T -> R) l : (forall x, In x l -> 0 <= f x) -> 0 <= rsum f l.
Proof. induction l as [|x l IH]; intros H; cbn; [lra|]. apply Rplus_le_le_0_compat; [apply H; left; reflexivity|apply IH; intros y Hy; apply H; right; exact Hy]. Qed.
Lemma rsum_ge_one {T} (f : T -> R) l x : (forall y, In y l -> 0 <= f y) -> In x l -> f x <= rsum f l.
Proof.
  induction l as [|y l IH]; intros H Hin; [destruct Hin|]. destruct Hin as [->|Hx]; cbn.
  - assert (0 <= rsum f l) by (apply rsum_nonneg; intros z Hz; apply H; right; exact Hz). unfold rsum in *. lra.
  - assert (f x <= rsum f l) by (apply IH; [intros z Hz; apply H; right; exact Hz|exact Hx]).
    pose proof (H y (or_introl eq_refl)). unfold rsum in *. lra.
Qed.
Lemma csum_fst {T} (f : T -> R * R) l : fst (csum f l) = rsum (fun x => fst (f x)) l. Proof. reflexivity. Qed.
Lemma csum_snd {T} (f : T -> R * R) l : snd (csum f l) = rsum (fun x => snd (f x)) l. Proof. reflexivity. Qed.
Lemma power_nonneg a : 0 <= power a. Proof. unfold power. pose proof (pow2_ge_0 (fst a)). pose proof (pow2_ge_0 (snd a)). lra. Qed.

Section LS.
  Variables (k : nat) (l : R) (y : R * R) (data : list (R * (nat -> R * R))).
  Notation ch := (seq 0 k).
  (** Weighted energies. *)
  Definition wcross (a : nat) : R * R := csum (fun d => cscale (fst d) (times (conjugate (snd d a)) y)) data.
  Definition wauto (a b : nat) : R * R := csum (fun d => cscale (fst d) (times (conjugate (snd d a)) (snd d b))) data.
  Definition normal (g : nat -> R * R) : Prop := forall a, (a < k)%nat ->
    cadd (csum (fun b => times (wauto a b) (g b)) ch) (cscale l (g a)) = wcross a.

  Lemma resid_eq g a : normal g -> (a < k)%nat ->
    let e (d : R * (nat -> R * R)) := difference y (response k g (snd d)) in
    rsum (fun d => fst d * (fst (snd d a) * fst (e d) + snd (snd d a) * snd (e d))) data = l * fst (g a) /\
    rsum (fun d => fst d * (fst (snd d a) * snd (e d) - snd (snd d a) * fst (e d))) data = l * snd (g a).
  Proof.
    intros N Ha e. specialize (N a Ha).
    assert (E1 : fst (csum (fun b => times (wauto a b) (g b)) ch) =
      rsum (fun d => fst d * (fst (snd d a) * fst (response k g (snd d)) + snd (snd d a) * snd (response k g (snd d)))) data).
    { rewrite csum_fst. unfold times at 1, wauto. cbn [fst snd].
      transitivity (rsum (fun b => rsum (fun d => fst d * (fst (snd d a) * fst (times (snd d b) (g b)) + snd (snd d a) * snd (times (snd d b) (g b)))) data) ch).
      { apply rsum_ext. intros b _. rewrite csum_fst, csum_snd. rewrite Rmult_comm, (Rmult_comm (rsum _ _) (snd (g b))), <- !rsum_scal.
        replace (rsum (fun d => fst (g b) * fst (cscale (fst d) (times (conjugate (snd d a)) (snd d b)))) data - rsum (fun d => snd (g b) * snd (cscale (fst d) (times (conjugate (snd d a)) (snd d b)))) data)
          with (rsum (fun d => fst (g b) * fst (cscale (fst d) (times (conjugate (snd d a)) (snd d b)))) data + (-1) * rsum (fun d => snd (g b) * snd (cscale (fst d) (times (conjugate (snd d a)) (snd d b)))) data) by ring.
        rewrite <- rsum_scal, <- rsum_plus. apply rsum_ext. intros d _. unfold cscale, times, conjugate. cbn [fst snd]. ring. }
      rewrite rsum_swap. apply rsum_ext. intros d _. rewrite rsum_scal, rsum_plus, !rsum_scal. unfold response. rewrite csum_fst, csum_snd. reflexivity. }
    assert (E2 : snd (csum (fun b => times (wauto a b) (g b)) ch) =
      rsum (fun d => fst d * (fst (snd d a) * snd (response k g (snd d)) + (-1) * (snd (snd d a) * fst (response k g (snd d))))) data).
    { rewrite csum_snd. unfold times at 1, wauto. cbn [fst snd].
      transitivity (rsum (fun b => rsum (fun d => fst d * (fst (snd d a) * snd (times (snd d b) (g b)) + (-1) * (snd (snd d a) * fst (times (snd d b) (g b))))) data) ch).
      { apply rsum_ext. intros b _. rewrite csum_fst, csum_snd. rewrite Rmult_comm, (Rmult_comm (rsum _ _) (fst (g b))), <- !rsum_scal.
        rewrite <- rsum_plus. apply rsum_ext. intros d _. unfold cscale, times, conjugate. cbn [fst snd]. ring. }
      rewrite rsum_swap. apply rsum_ext. intros d _. rewrite rsum_scal, rsum_plus, !rsum_scal. unfold response. rewrite csum_fst, csum_snd. reflexivity. }
    assert (N1 : fst (csum (fun b => times (wauto a b) (g b)) ch) + l * fst (g a) = fst (wcross a)) by (rewrite <- N; reflexivity).
    assert (N2 : snd (csum (fun b => times (wauto a b) (g b)) ch) + l * snd (g a) = snd (wcross a)) by (rewrite <- N; reflexivity).
    rewrite E1 in N1. rewrite E2 in N2. unfold wcross in N1, N2. rewrite csum_fst in N1. rewrite csum_snd in N2.
    split.
    - transitivity (rsum (fun x => fst (cscale (fst x) (times (conjugate (snd x a)) y))) data + (-1) * rsum (fun d => fst d * (fst (snd d a) * fst (response k g (snd d)) + snd (snd d a) * snd (response k g (snd d)))) data); [|lra].
      rewrite <- rsum_scal, <- rsum_plus. apply rsum_ext. intros d _. unfold e, difference, cscale, times, conjugate. cbn [fst snd]. ring.
    - transitivity (rsum (fun x => snd (cscale (fst x) (times (conjugate (snd x a)) y))) data + (-1) * rsum (fun d => fst d * (fst (snd d a) * snd (response k g (snd d)) + (-1) * (snd (snd d a) * fst (response k g (snd d))))) data); [|lra].
      rewrite <- rsum_scal, <- rsum_plus. apply rsum_ext. intros d _. unfold e, difference, cscale, times, conjugate. cbn [fst snd]. ring.
  Qed.

  Lemma response_diff g h x : response k h x = cadd (response k g x) (response k (fun c => difference (h c) (g c)) x).
  Proof.
    apply pair_eq; unfold response, cadd; cbn [fst snd]; rewrite ?csum_fst, ?csum_snd, <- rsum_plus; apply rsum_ext; intros c _;
      unfold times, difference; cbn [fst snd]; ring.
  Qed.

  Lemma normal_best g : (forall d, In d data -> 0 <= fst d) -> normal g -> best_filter k l y data g.
  Proof.
    intros W N h. set (dl := fun c => difference (h c) (g c)).
    set (e := fun d : R * (nat -> R * R) => difference y (response k g (snd d))).
    (* the mixed terms cancel *)
    assert (X : rsum (fun d => fst d * (fst (e d) * fst (response k dl (snd d)) + snd (e d) * snd (response k dl (snd d)))) data =
                l * rsum (fun c => fst (g c) * fst (dl c) + snd (g c) * snd (dl c)) ch).
    { transitivity (rsum (fun d => rsum (fun c => fst d * (fst (e d) * fst (times (snd d c) (dl c)) + snd (e d) * snd (times (snd d c) (dl c)))) ch) data).
      { apply rsum_ext. intros d _. rewrite rsum_scal, rsum_plus, !rsum_scal. reflexivity. }
      rewrite rsum_swap, <- rsum_scal. apply rsum_ext. intros c Hc. apply in_seq in Hc. destruct (resid_eq g c N ltac:(lia)) as [R1 R2].
      transitivity (fst (dl c) * (l * fst (g c)) + snd (dl c) * (l * snd (g c))); [|ring].
      rewrite <- R1, <- R2, <- !rsum_scal, <- rsum_plus. apply rsum_ext. intros d _. unfold times, e. cbn [fst snd]. ring. }
    assert (E : misfit k l y data h = misfit k l y data g + rsum (fun d => fst d * power (response k dl (snd d))) data + l * rsum (fun c => power (dl c)) ch).
    { unfold misfit.
      assert (E1 : rsum (fun d => fst d * power (difference y (response k h (snd d)))) data =
        rsum (fun d => fst d * power (difference y (response k g (snd d)))) data +
        ((-2) * rsum (fun d => fst d * (fst (e d) * fst (response k dl (snd d)) + snd (e d) * snd (response k dl (snd d)))) data +
        rsum (fun d => fst d * power (response k dl (snd d))) data)).
      { rewrite <- rsum_scal, <- !rsum_plus. apply rsum_ext. intros d _. rewrite (response_diff g h). fold dl. unfold e, power, difference, cadd. cbn [fst snd]. ring. }
      assert (E2 : rsum (fun c => power (h c)) ch = rsum (fun c => power (g c)) ch + (2 * rsum (fun c => fst (g c) * fst (dl c) + snd (g c) * snd (dl c)) ch + rsum (fun c => power (dl c)) ch)).
      { rewrite <- rsum_scal, <- !rsum_plus. apply rsum_ext. intros c _. unfold dl, power, difference. cbn [fst snd]. ring. }
      rewrite E1, E2, X. ring. }
    rewrite E. change (fun c => power (difference (h c) (g c))) with (fun c => power (dl c)). assert (0 <= rsum (fun d => fst d * power (response k dl (snd d))) data).
    { apply rsum_nonneg. intros d Hd. apply Rmult_le_pos; [apply W, Hd|apply power_nonneg]. }
    lra.
  Qed.
End LS.

(** With a zero right-hand side only the zero filter is left. *)
Lemma normal_trivial k l data g : 0 < l -> (forall d, In d data -> 0 <= fst d) -> normal k l (0, 0) data g ->
  forall b, (b < k)%nat -> g b = (0, 0).
Proof.
  intros L W N b Hb. pose proof (normal_best k l (0, 0) data g W N (fun _ => (0, 0))) as B.
  assert (Z : misfit k l (0, 0) data (fun _ => (0, 0)) = 0).
  { unfold misfit. rewrite (rsum_ext _ (fun _ => 0)). 2:{ intros d _. unfold response, csum, power, difference. cbn [fst snd].
      assert (Z : forall n : list nat, fold_right (fun x s => fst (times (snd d x) (0, 0)) + s) 0 n = 0 /\ fold_right (fun x s => snd (times (snd d x) (0, 0)) + s) 0 n = 0).
      { induction n as [|a n [I1 I2]]; cbn [fold_right]; [split; reflexivity|]. rewrite I1, I2. unfold times; cbn [fst snd]. split; ring. }
      destruct (Z (seq 0 k)) as [-> ->]. ring. }
    rewrite (rsum_ext (fun c : nat => power (0, 0)) (fun _ => 0)) by (intros c _; unfold power; cbn; ring). rewrite !rsum_zero. ring. }
  rewrite Z in B.
  assert (P : 0 <= misfit k l (0, 0) data g).
  { unfold misfit. apply Rplus_le_le_0_compat; [apply rsum_nonneg; intros d Hd; apply Rmult_le_pos; [apply W, Hd|apply power_nonneg]|].
    apply Rmult_le_pos; [lra|]. apply rsum_nonneg. intros; apply power_nonneg. }
  assert (Q : power (difference (0, 0) (g b)) <= rsum (fun c => power (difference (0, 0) (g c))) (seq 0 k)).
  { apply (rsum_ge_one (fun c => power (difference (0, 0) (g c)))); [intros; apply power_nonneg|apply in_seq; lia]. }
  assert (R0 : power (difference (0, 0) (g b)) <= 0).
  { apply (Rmult_le_reg_l l); [exact L|]. apply Rle_trans with (l * rsum (fun c => power (difference (0, 0) (g c))) (seq 0 k)); [apply Rmult_le_compat_l; lra|]. lra. }
  unfold power, difference in R0. cbn [fst snd] in R0. destruct (g b) as [u v]. cbn [fst snd] in R0.
  assert (u = 0) by nra. assert (v = 0) by nra. subst. reflexivity.
Qed.

(** mccf and imccf. *)
Section Mccf.
  Context {I : Type} (fft : I -> nat -> nat -> R * R) (y : nat -> R * R) (l : R).
  Definition weigh (t : R) (w : nat) (X : list I) : list (R * (nat -> R * R)) := map (fun x => (t, fun c => fft x c w)) X.
  Lemma weigh_nonneg t w X : 0 <= t -> forall d, In d (weigh t w X) -> 0 <= fst d.
  Proof. intros H d Hd. apply in_map_iff in Hd. destruct Hd as (x & <- & _). exact H. Qed.
  Lemma csum_scaled {T U} t (f : U -> R * R) (h : T -> U) (g : T -> R * R) (xs : list T) : (forall x, f (h x) = cscale t (g x)) ->
    csum f (map h xs) = cscale t (csum g xs).
  Proof.
    intros H. induction xs as [|x xs IH]; [apply pair_eq; cbn; ring|].
    change (cadd (f (h x)) (csum f (map h xs)) = cscale t (cadd (g x) (csum g xs))). rewrite IH, H.
    apply pair_eq; unfold cadd, cscale; cbn [fst snd]; ring.
  Qed.
  Lemma wauto_weigh t w X a b : wauto (weigh t w X) a b = cscale t (auto_blocks_of fft X a b w).
  Proof. apply csum_scaled. reflexivity. Qed.
  Lemma wcross_weigh t w X a : wcross (y w) (weigh t w X) a = cscale t (cross_of fft y X a w).
  Proof. apply csum_scaled. reflexivity. Qed.
  Lemma wauto_app d1 d2 a b : wauto (d1 ++ d2) a b = cadd (wauto d1 a b) (wauto d2 a b). Proof. apply csum_app. Qed.
  Lemma wcross_app y0 d1 d2 a : wcross y0 (d1 ++ d2) a = cadd (wcross y0 d1 a) (wcross y0 d2 a). Proof. apply csum_app. Qed.

  Lemma diag_sum k a (f : nat -> R) : (a < k)%nat -> rsum (fun b => if Nat.eqb a b then f b else 0) (seq 0 k) = f a.
  Proof.
    intros Ha. assert (G : forall n s, rsum (fun b => if Nat.eqb a b then f b else 0) (seq s n) = if andb (Nat.leb s a) (Nat.ltb a (s + n)) then f a else 0).
    { induction n as [|n IH]; intros s; cbn [seq].
      - destruct (Nat.leb_spec s a), (Nat.ltb_spec a (s + 0)); cbn [andb]; try reflexivity; lia.
      - unfold rsum in *. cbn [fold_right]. rewrite IH. destruct (Nat.eqb_spec a s) as [->|Hne].
        + rewrite Nat.leb_refl. destruct (Nat.leb_spec (S s) s), (Nat.ltb_spec s (s + S n)); try lia. cbn [andb]. ring.
        + destruct (Nat.leb_spec s a), (Nat.leb_spec (S s) a), (Nat.ltb_spec a (S s + n)), (Nat.ltb_spec a (s + S n)); cbn [andb]; try lia; ring. }
    rewrite G. destruct (Nat.leb_spec 0 a), (Nat.ltb_spec a (0 + k)); try lia. reflexivity.
  Qed.
  (** The system that is solved: the normal equations of weighted data. *)
  Lemma regularised_sum k B a w (g : nat -> R * R) : (a < k)%nat ->
    csum (fun b => times (regularised l B a b w) (g b)) (seq 0 k) = cadd (csum (fun b => times (B a b w) (g b)) (seq 0 k)) (cscale l (g a)).
  Proof.
    intros Ha. apply pair_eq; unfold cadd, cscale; cbn [fst snd]; rewrite ?csum_fst, ?csum_snd.
    - rewrite <- (diag_sum k a (fun b => l * fst (g b)) Ha), <- rsum_plus. apply rsum_ext. intros b _. unfold regularised.
      destruct (Nat.eqb a b); unfold times, cadd, creal, czero; cbn [fst snd]; ring.
    - rewrite <- (diag_sum k a (fun b => l * snd (g b)) Ha), <- rsum_plus. apply rsum_ext. intros b _. unfold regularised.
      destruct (Nat.eqb a b); unfold times, cadd, creal, czero; cbn [fst snd]; ring.
  Qed.
  Lemma csum_ext {T} (f g : T -> R * R) (xs : list T) : (forall x, f x = g x) -> csum f xs = csum g xs.
  Proof. intros H. apply pair_eq; rewrite ?csum_fst, ?csum_snd; apply rsum_ext; intros x _; rewrite H; reflexivity. Qed.
  Lemma solved_best k solve (A : nat -> nat -> R * R) B (data : nat -> list (R * (nat -> R * R))) : solver k solve -> 0 < l ->
    (forall w d, In d (data w) -> 0 <= fst d) ->
    (forall w a b, B a b w = wauto (data w) a b) -> (forall w a, A a w = wcross (y w) (data w) a) ->
    forall w, best_filter k l (y w) (data w) (fun c => solve (regularised l B) A c w).
  Proof.
    intros Hs L W EB EA w. apply normal_best; [apply W|]. intros a Ha. rewrite <- EA.
    rewrite <- (Hs (regularised l B) A).
    - rewrite regularised_sum by exact Ha. f_equal. apply csum_ext. intros b. rewrite EB. reflexivity.
    - intros g Hg w' b Hb. apply (normal_trivial k l (data w') (fun b => g b w') L (W w')); [|exact Hb].
      intros a' Ha'. specialize (Hg w' a' Ha'). rewrite (regularised_sum k B a' w' (fun b => g b w') Ha') in Hg.
      transitivity ((0, 0) : R * R).
      + rewrite <- Hg. f_equal. apply csum_ext. intros c. rewrite EB. reflexivity.
      + unfold wcross. generalize (data w'). intros D. apply pair_eq; rewrite ?csum_fst, ?csum_snd; cbn [fst snd];
          symmetry; transitivity (rsum (fun _ : R * (nat -> R * R) => 0) D); try apply rsum_zero; apply rsum_ext; intros d _; unfold cscale, times, conjugate; cbn [fst snd]; ring.
    - exact Ha.
  Qed.
End Mccf.

(** Histories. *)
Lemma increments_filter {I F A B : Type} (cf : list I -> res (F * A * B)) (icf : A -> B -> R -> list I -> res (F * A * B)) (solve : A -> B -> F) :
  (forall X fab, cf X = Ok fab -> fst (fst fab) = solve (snd (fst fab)) (snd fab)) ->
  (forall a b n X fab, icf a b n X = Ok fab -> fst (fst fab) = solve (snd (fst fab)) (snd fab)) ->
  forall X0 e0 batches e, train_expert cf X0 = Ok e0 -> increments icf e0 batches = Ok e -> ex_filter e = solve (ex_a e) (ex_b e).
Proof.
  intros Hc Hi X0 e0 batches e H0 H. assert (G0 : ex_filter e0 = solve (ex_a e0) (ex_b e0)).
  { unfold train_expert in H0. destruct (cf X0) as [fab|] eqn:Ec; [|discriminate]. cbn [bind] in H0. injection H0 as <-. cbn [ex_filter ex_a ex_b]. exact (Hc _ _ Ec). }
  clear H0. revert e0 G0 H. induction batches as [|b bs IH]; intros e0 G0 H; cbn [increments] in H; [injection H as <-; exact G0|].
  destruct (increment_expert icf e0 b) as [e1|] eqn:E1; [|discriminate]. cbn [bind] in H. apply (IH e1); [|exact H].
  unfold increment_expert in E1. destruct (icf _ _ _ _) as [fab|] eqn:Ec; [|discriminate]. cbn [bind] in E1. injection E1 as <-. cbn [ex_filter ex_a ex_b]. exact (Hi _ _ _ _ _ Ec).
Qed.
Lemma csum_nil {T} (f : T -> R * R) : csum f [] = (0, 0). Proof. reflexivity. Qed.
Lemma wsum_cons t ws v vs : wsum (t :: ws) (v :: vs) = cadd (cscale t v) (wsum ws vs). Proof. reflexivity. Qed.
Definition weighted {I} (fft : I -> nat -> nat -> R * R) ws (Xs : list (list I)) w : list (R * (nat -> R * R)) :=
  concat (map (fun tX => weigh fft (fst tX) w (snd tX)) (combine ws Xs)).
Lemma weighted_nonneg {I} (fft : I -> nat -> nat -> R * R) ws Xs w : Forall (fun t => 0 < t) ws -> forall d, In d (weighted fft ws Xs w) -> 0 <= fst d.
Proof.
  intros H d Hd. apply in_concat in Hd. destruct Hd as (D & HD & Hd). apply in_map_iff in HD. destruct HD as ([t X] & <- & Hin). cbn [fst snd] in Hd.
  apply (weigh_nonneg fft t w X); [|exact Hd]. rewrite Forall_forall in H. specialize (H t (in_combine_l _ _ _ _ Hin)). lra.
Qed.
Lemma wauto_weighted {I} (fft : I -> nat -> nat -> R * R) a b w : forall ws Xs,
  wauto (weighted fft ws Xs w) a b = wsum ws (map (fun X => auto_blocks_of fft X a b w) Xs).
Proof.
  induction ws as [|t ws IH]; intros [|X Xs]; try reflexivity. cbn [map]. rewrite wsum_cons, <- IH. unfold weighted. cbn [combine map concat fst snd].
  rewrite wauto_app, wauto_weigh. reflexivity.
Qed.
Lemma wcross_weighted {I} (fft : I -> nat -> nat -> R * R) y a w : forall ws Xs,
  wcross (y w) (weighted fft ws Xs w) a = wsum ws (map (fun X => cross_of fft y X a w) Xs).
Proof.
  induction ws as [|t ws IH]; intros [|X Xs]; try reflexivity. cbn [map]. rewrite wsum_cons, <- IH. unfold weighted. cbn [combine map concat fst snd].
  rewrite wcross_app, wcross_weigh. reflexivity.
Qed.

(** One channel. *)
Lemma mosse_best (y : nat -> R * R) l (a b : nat -> nat -> R * R) g c w data : (forall d, In d data -> 0 <= fst d) ->
  is_filter l g a b -> a c w = wcross (y w) data 0 -> b c w = wauto data 0 0 -> best_filter 1 l (y w) data (fun _ => g c w).
Proof.
  intros W H Ea Eb. apply normal_best; [exact W|]. intros a' Ha'. assert (a' = 0%nat) by lia. subst a'. rewrite <- Ea, <- (H c w).
  rewrite Eb. apply pair_eq; unfold csum, cadd, cscale, times; cbn [seq fold_right fst snd]; ring.
Qed.

(** A solver for two channels: Cramer's rule. *)
Definition cramer (M : nat -> nat -> nat -> R * R) (s : nat -> nat -> R * R) (c w : nat) : R * R :=
  let det := difference (times (M 0%nat 0%nat w) (M 1%nat 1%nat w)) (times (M 0%nat 1%nat w) (M 1%nat 0%nat w)) in
  match c with
  | O => cdiv (difference (times (s 0%nat w) (M 1%nat 1%nat w)) (times (M 0%nat 1%nat w) (s 1%nat w))) det
  | _ => cdiv (difference (times (M 0%nat 0%nat w) (s 1%nat w)) (times (s 0%nat w) (M 1%nat 0%nat w))) det
  end.
Lemma norm2_zero a : norm2 a = 0 -> a = (0, 0).
Proof. destruct a as [u v]. unfold norm2. cbn [fst snd]. intros H. assert (u = 0) by nra. assert (v = 0) by nra. subst. reflexivity. Qed.
Lemma cramer_solver : solver 2 cramer.
Proof.
  intros M s K w.
  set (m00 := M 0%nat 0%nat w). set (m01 := M 0%nat 1%nat w). set (m10 := M 1%nat 0%nat w). set (m11 := M 1%nat 1%nat w).
  assert (D : norm2 (difference (times m00 m11) (times m01 m10)) <> 0).
  { intros Z. apply norm2_zero in Z. unfold difference, times in Z. cbn [fst snd] in Z. injection Z as Z1 Z2.
    assert (T : forall u v : R * R, (forall a, (a < 2)%nat -> cadd (times (M a 0%nat w) u) (times (M a 1%nat w) v) = (0, 0)) -> u = (0, 0) /\ v = (0, 0)).
    { intros u v H. assert (G : forall w' b, (b < 2)%nat -> (fun b w' => if Nat.eqb w' w then match b with O => u | _ => v end else (0, 0)) b w' = (0, 0)).
      { apply (K (fun b w' => if Nat.eqb w' w then match b with O => u | _ => v end else (0, 0))).
        intros w' a Ha. destruct (Nat.eqb_spec w' w) as [->|_].
        - rewrite <- (H a Ha). apply pair_eq; unfold csum, cadd; cbn [seq fold_right fst snd]; ring.
        - apply pair_eq; unfold csum, times; cbn [seq fold_right fst snd]; ring. }
      cbv beta in G. pose proof (G w 0%nat ltac:(lia)) as G0. pose proof (G w 1%nat ltac:(lia)) as G1. rewrite Nat.eqb_refl in G0, G1. auto. }
    assert (R2 : forall a, (a < 2)%nat -> a = 0%nat \/ a = 1%nat) by lia.
    destruct (T (- fst m01, - snd m01) m00) as [A1 A2].
    { intros a Ha. destruct (R2 a Ha) as [-> | ->]; fold m00 m01 m10 m11; apply pair_eq; unfold cadd, times; cbn [fst snd]; lra. }
    destruct (T m11 (- fst m10, - snd m10)) as [B1 B2].
    { intros a Ha. destruct (R2 a Ha) as [-> | ->]; fold m00 m01 m10 m11; apply pair_eq; unfold cadd, times; cbn [fst snd]; lra. }
    injection A1 as A1 A1'. injection B2 as B2 B2'.
    destruct (T (1, 0) (0, 0)) as [C _].
    { intros a Ha. destruct (R2 a Ha) as [-> | ->]; fold m00 m01 m10 m11; apply pair_eq; unfold cadd, times; cbn [fst snd];
        rewrite ?A2; cbn [fst snd]; try lra; unfold m10 in *; lra. }
    injection C as C. lra. }
  assert (R2 : forall a, (a < 2)%nat -> a = 0%nat \/ a = 1%nat) by lia.
  assert (CM : forall p q d : R * R, norm2 d <> 0 -> times p (cdiv q d) = cdiv (times p q) d).
  { intros p q d _. apply pair_eq; unfold cdiv, times, cscale, cmul, conj; cbn [fst snd]; ring. }
  intros a Ha.
  assert (G : forall u v t : R * R, cadd (times u (difference (times (s 0%nat w) m11) (times m01 (s 1%nat w)))) (times v (difference (times m00 (s 1%nat w)) (times (s 0%nat w) m10))) = times t (difference (times m00 m11) (times m01 m10)) ->
     csum (fun b => times (match b with O => u | _ => v end) (cramer M s b w)) (seq 0 2) = t).
  { intros u v t H. assert (N : norm2 (difference (times m00 m11) (times m01 m10)) <> 0) by exact D.
    transitivity (cdiv (times t (difference (times m00 m11) (times m01 m10))) (difference (times m00 m11) (times m01 m10))).
    - rewrite <- H. unfold cramer. fold m00 m01 m10 m11. set (dd := difference (times m00 m11) (times m01 m10)) in *.
      set (p := difference (times (s 0%nat w) m11) (times m01 (s 1%nat w))). set (q := difference (times m00 (s 1%nat w)) (times (s 0%nat w) m10)).
      clearbody p q dd. apply pair_eq; unfold csum, cdiv, cadd, times, cscale, cmul, conj; cbn [seq fold_right fst snd]; ring.
    - set (dd := difference (times m00 m11) (times m01 m10)) in *. clearbody dd. destruct dd as [d1 d2], t as [t1 t2].
      unfold norm2 in N. cbn [fst snd] in N. apply pair_eq; unfold cdiv, times, cscale, cmul, conj, norm2; cbn [fst snd]; field; exact N. }
  destruct (R2 a Ha) as [-> | ->].
  - transitivity (csum (fun b => times (match b with O => m00 | _ => m01 end) (cramer M s b w)) (seq 0 2)); [reflexivity|].
    apply G. clearbody m00 m01 m10 m11. apply pair_eq; unfold cadd, times, difference; cbn [fst snd]; ring.
  - transitivity (csum (fun b => times (match b with O => m10 | _ => m11 end) (cramer M s b w)) (seq 0 2)); [reflexivity|].
    apply G. clearbody m00 m01 m10 m11. apply pair_eq; unfold cadd, times, difference; cbn [fst snd]; ring.
Qed.
