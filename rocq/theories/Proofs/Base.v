From Coq Require Import List ZArith Reals Lia Lra Arith Bool Permutation.
From Verif.Model Require Import Py Base.
From Verif.Spec Require Import Base.
Import ListNotations.
Local Open Scope nat_scope.

Lemma firstn_nil_inv {A} n (l : list A) : firstn n l = [] -> n = 0 \/ l = [].
Proof. destruct n; auto. destruct l; simpl; auto. discriminate. Qed.

Lemma batch_loop_zero {A} fuel (l : list A) : batch_loop fuel l 0 = [].
Proof. destruct fuel; reflexivity. Qed.

Lemma batch_loop_fuel {A} n : forall f1 f2 (l : list A),
  length l < f1 -> length l < f2 -> batch_loop f1 l n = batch_loop f2 l n.
Proof.
  induction f1 as [|f1 IH]; intros f2 l H1 H2; [lia|].
  destruct f2 as [|f2]; [lia|]. simpl.
  destruct (firstn n l) eqn:E; [reflexivity|]. f_equal.
  assert (n <> 0) by (intros ->; discriminate).
  assert (l <> []) by (intros ->; rewrite firstn_nil in E; discriminate).
  assert (length (skipn n l) < length l).
  { rewrite skipn_length. destruct l; [congruence|]. cbn [length]. lia. }
  apply IH; lia.
Qed.

(** The fuel is never exhausted: the model satisfies the loop equation of the code. *)
Lemma batch_unfold {A} (l : list A) n :
  batch_loop (S (length l)) l n =
  match firstn n l with
  | [] => []
  | chunk => chunk :: batch_loop (S (length (skipn n l))) (skipn n l) n
  end.
Proof.
  change (batch_loop (S (length l)) l n) with
    (match firstn n l with [] => [] | chunk => chunk :: batch_loop (length l) (skipn n l) n end).
  destruct (firstn n l) eqn:E; [reflexivity|]. f_equal.
  assert (n <> 0) by (intros ->; discriminate).
  assert (l <> []) by (intros ->; rewrite firstn_nil in E; discriminate).
  apply batch_loop_fuel; [|lia].
  rewrite skipn_length. destruct l; [congruence|]. cbn [length]. lia.
Qed.

Lemma chunks_of_cons {A} n (l : list A) chunks :
  1 <= n -> l <> [] -> chunks_of n (skipn n l) chunks -> chunks_of n l (firstn n l :: chunks).
Proof.
  intros Hn Hl (Hc & Hf & Hlast). split; [|split].
  - simpl. rewrite Hc. apply firstn_skipn.
  - constructor; auto. rewrite firstn_length. destruct l; [congruence|]. cbn [length]. lia.
  - intros pre c c' post E. destruct pre as [|p pre].
    + simpl in E. injection E as <- Ec. rewrite firstn_length.
      assert (Hl' : 1 <= length (skipn n l)).
      { rewrite <- Hc, Ec. simpl. rewrite app_length.
        rewrite Ec in Hf. inversion Hf; subst. lia. }
      rewrite skipn_length in Hl'. lia.
    + simpl in E. injection E as _ Ec. eapply Hlast; eauto.
Qed.

Lemma batch_spec {A} (l : list A) n : 1 <= n -> chunks_of n l (batch_loop (S (length l)) l n).
Proof.
  intros Hn. remember (length l) as m eqn:Hm.
  revert l Hm. induction m as [m IH] using lt_wf_ind. intros l ->.
  rewrite batch_unfold. destruct (firstn n l) eqn:E.
  - apply firstn_nil_inv in E. destruct E as [->| ->]; [lia|].
    split; [reflexivity|split; [constructor|]]. intros pre c c' post H. destruct pre; discriminate.
  - rewrite <- E. assert (l <> []) by (intros ->; rewrite firstn_nil in E; discriminate).
    apply chunks_of_cons; auto. eapply IH; [|reflexivity].
    rewrite skipn_length. destruct l; [congruence|]. cbn [length]. lia.
Qed.

Lemma chunks_of_unique {A} n : forall c1 c2 (l : list A),
  chunks_of n l c1 -> chunks_of n l c2 -> c1 = c2.
Proof.
  induction c1 as [|a c1 IH]; intros c2 l (E1 & F1 & L1) (E2 & F2 & L2).
  - simpl in E1. subst l. destruct c2 as [|b c2]; auto. inversion F2 as [|? ? Hb].
    simpl in E2. destruct b; simpl in *; [lia|discriminate].
  - destruct c2 as [|b c2].
    + simpl in E2. subst l. inversion F1 as [|? ? Ha]. destruct a; simpl in *; [lia|discriminate].
    + assert (Hab : length a = length b).
      { simpl in E1, E2. inversion F1; subst. inversion F2; subst.
        assert (Hlen : length (a ++ concat c1) = length (b ++ concat c2)) by congruence.
        rewrite !app_length in Hlen.
        destruct c1 as [|a' c1]; destruct c2 as [|b' c2].
        - simpl in Hlen. lia.
        - pose proof (L2 [] b b' c2 eq_refl). simpl in Hlen.
          inversion H4; subst. rewrite app_length in Hlen. lia.
        - pose proof (L1 [] a a' c1 eq_refl). simpl in Hlen.
          inversion H2; subst. rewrite app_length in Hlen. lia.
        - rewrite (L1 [] a a' c1 eq_refl), (L2 [] b b' c2 eq_refl). reflexivity. }
      assert (Hl : a = b /\ concat c1 = concat c2).
      { simpl in E1, E2. rewrite <- E2 in E1. clear - E1 Hab. revert b Hab E1.
        induction a as [|x a IHa]; intros [|y b] Hab E; simpl in *; try discriminate; auto.
        injection E as -> E. destruct (IHa b) as [-> ?]; auto. }
      destruct Hl as [-> Hc]. f_equal. apply (IH c2 (concat c1)).
      * split; [reflexivity|split; [inversion F1; auto|]]. intros pre c c' post ->.
        apply (L1 (b :: pre) c c' post). reflexivity.
      * split; [congruence|split; [inversion F2; auto|]]. intros pre c c' post ->.
        apply (L2 (b :: pre) c c' post). reflexivity.
Qed.

Lemma batch_iff {A} (l : list A) n out : (1 <= n)%Z ->
  (batch l n = Ok out <-> chunks_of (Z.to_nat n) l out).
Proof.
  intros Hn. unfold batch. destruct (n <? 0)%Z eqn:E; [lia|].
  pose proof (batch_spec l (Z.to_nat n) ltac:(lia)) as H. split.
  - intros [= <-]. exact H.
  - intros H'. f_equal. eapply chunks_of_unique; eauto.
Qed.

Lemma batch_zero {A} (l : list A) : batch l 0 = Ok [].
Proof. unfold batch. simpl. reflexivity. Qed.

Lemma batch_negative {A} (l : list A) n : (n < 0)%Z -> batch l n = Err ValueError.
Proof. intros H. unfold batch. destruct (n <? 0)%Z eqn:E; [reflexivity|lia]. Qed.

(** Number of batches. *)
Lemma batch_loop_count {A} (l : list A) n : 1 <= n ->
  length (batch_loop (S (length l)) l n) = (length l + n - 1) / n.
Proof.
  intros Hn. remember (length l) as m eqn:Hm.
  revert l Hm. induction m as [m IH] using lt_wf_ind. intros l ->.
  rewrite batch_unfold. destruct (firstn n l) eqn:E.
  - apply firstn_nil_inv in E. destruct E as [->| ->]; [lia|].
    simpl. symmetry. apply Nat.div_small. lia.
  - assert (l <> []) by (intros ->; rewrite firstn_nil in E; discriminate).
    assert (1 <= length l) by (destruct l; simpl; [congruence|lia]).
    cbn [length]. rewrite (IH (length (skipn n l))); [| |reflexivity].
    + rewrite skipn_length. destruct (le_lt_dec n (length l)).
      * replace (length l + n - 1) with ((length l - n + n - 1) + 1 * n) by lia.
        rewrite Nat.div_add by lia. lia.
      * replace (length l - n) with 0 by lia. rewrite Nat.div_small by lia.
        apply (Nat.div_unique _ _ 1 (length l - 1)); lia.
    + rewrite skipn_length. lia.
Qed.

Lemma batch_count {A} (l : list A) n out : 1 <= n -> batch l (Z.of_nat n) = Ok out -> length out = (length l + n - 1) / n.
Proof.
  intros Hn H. unfold batch in H. destruct (Z.ltb_spec (Z.of_nat n) 0); [lia|]. injection H as <-.
  rewrite Nat2Z.id. apply batch_loop_count, Hn.
Qed.

(** ** Grid *)
Lemma mgrid_axis_length lo hi : length (mgrid_axis lo hi) = Z.to_nat (hi - lo).
Proof. unfold mgrid_axis. rewrite map_length, seq_length. reflexivity. Qed.

Lemma half_axis (n : nat) :
  Z.to_nat ((Z.of_nat n / 2 + Z.of_nat n mod 2) - - (Z.of_nat n / 2)) = n.
Proof. pose proof (Z.div_mod (Z.of_nat n) 2 ltac:(lia)). lia. Qed.

Lemma mgrid_axis_nth lo hi k : k < Z.to_nat (hi - lo) ->
  nth_error (mgrid_axis lo hi) k = Some (lo + Z.of_nat k)%Z.
Proof.
  intros H. unfold mgrid_axis. rewrite nth_error_map.
  rewrite (nth_error_nth' _ 0) by (rewrite seq_length; lia). simpl. rewrite seq_nth by lia. reflexivity.
Qed.

Lemma build_grid_spec (h w : nat) : centred_grid h w (build_grid (Z.of_nat h) (Z.of_nat w)).
Proof.
  unfold build_grid. split; [|split].
  - rewrite map_length, mgrid_axis_length. apply half_axis.
  - apply Forall_forall. intros r Hr. apply in_map_iff in Hr. destruct Hr as (y & <- & _).
    rewrite map_length, mgrid_axis_length. apply half_axis.
  - intros i j Hi Hj. rewrite nth_error_map, mgrid_axis_nth by (rewrite half_axis; lia). simpl.
    rewrite nth_error_map, mgrid_axis_nth by (rewrite half_axis; lia). simpl.
    do 2 f_equal. rewrite !Nat.div2_div, !Nat2Z.inj_div. simpl. f_equal; lia.
Qed.

(** ** ASM *)
Lemma sumR_app {A} (f : A -> R) l1 l2 : sumR f (l1 ++ l2) = (sumR f l1 + sumR f l2)%R.
Proof. induction l1; simpl; [lra|]. rewrite IHl1. lra. Qed.
Lemma sumR_perm {A} (f : A -> R) l1 l2 : Permutation l1 l2 -> sumR f l1 = sumR f l2.
Proof. induction 1; simpl; try lra; congruence. Qed.
Lemma sumR_map {A B} (f : B -> R) (g : A -> B) l : sumR f (map g l) = sumR (fun a => f (g a)) l.
Proof. induction l; simpl; congruence. Qed.
Lemma sumR_ext {A} (f g : A -> R) l : (forall a, In a l -> f a = g a) -> sumR f l = sumR g l.
Proof. induction l; simpl; intros H; auto. rewrite H, IHl by auto. reflexivity. Qed.
Lemma sumR_scal {A} (f : A -> R) c l : sumR (fun a => c * f a)%R l = (c * sumR f l)%R.
Proof. induction l; simpl; [lra|]. rewrite IHl. lra. Qed.
Lemma sumR_plus {A} (f g : A -> R) l : sumR (fun a => f a + g a)%R l = (sumR f l + sumR g l)%R.
Proof. induction l; simpl; [lra|]. rewrite IHl. lra. Qed.
Lemma sumR_concat {A} (f : A -> R) ll : sumR f (concat ll) = sumR (sumR f) ll.
Proof. induction ll; simpl; auto. rewrite sumR_app, IHll. reflexivity. Qed.
Lemma sumR_pos {A} (f : A -> R) l : (forall a, 0 < f a)%R -> l <> [] -> (0 < sumR f l)%R.
Proof.
  intros Hf. induction l as [|a l IH]; intros H; [congruence|]. simpl.
  destruct l. { simpl. pose proof (Hf a). lra. }
  pose proof (Hf a). pose proof (IH ltac:(discriminate)). lra.
Qed.

(** The error does not depend on the target position: it is minus the mean grid offset. *)
Lemma asm_error_eq kernel h w idx coord target :
  let grid := concat (build_grid h w) in
  let W := asm_weight kernel h w idx in
  sumR W grid <> 0%R ->
  asm_error kernel h w idx coord target
  = (- sumR (fun g => W g * IZR (coord g)) grid / sumR W grid)%R.
Proof.
  intros grid W HW. unfold asm_error, asm_new_target. fold grid. fold W.
  rewrite (sumR_ext _ (fun g => (target / sumR W grid) * W g + (/ sumR W grid) * (W g * IZR (coord g)))%R).
  2: { intros g _. field. exact HW. }
  rewrite sumR_plus, !sumR_scal. field. exact HW.
Qed.

(** Reversal of an axis. *)
Lemma mgrid_axis_rev m : map Z.opp (mgrid_axis (- m) (m + 1)) = rev (mgrid_axis (- m) (m + 1)).
Proof.
  destruct (Z_lt_le_dec m 0) as [H|H].
  { unfold mgrid_axis. replace (Z.to_nat (m + 1 - - m)) with 0 by lia. reflexivity. }
  set (N := Z.to_nat (m + 1 - - m)).
  assert (HN : length (mgrid_axis (-m) (m+1)) = N) by apply mgrid_axis_length.
  apply nth_ext with (d := 0%Z) (d' := 0%Z).
  { rewrite map_length, rev_length. reflexivity. }
  intros k Hk. rewrite map_length, HN in Hk.
  rewrite rev_nth by lia. rewrite HN.
  replace 0%Z with (Z.opp 0) at 1 by reflexivity. rewrite map_nth.
  assert (E : forall j, j < N -> nth j (mgrid_axis (-m) (m+1)) 0%Z = (- m + Z.of_nat j)%Z).
  { intros j Hj. apply nth_error_nth. apply mgrid_axis_nth. exact Hj. }
  rewrite !E by lia. lia.
Qed.

Lemma grid_neg_perm h w : (h mod 2 = 1)%Z -> (w mod 2 = 1)%Z ->
  Permutation (map (fun g : Z * Z => (- fst g, - snd g)%Z) (concat (build_grid h w)))
              (concat (build_grid h w)).
Proof.
  intros Hh Hw. unfold build_grid. rewrite Hh, Hw.
  set (R := mgrid_axis (- (h/2)) (h/2 + 1)). set (C := mgrid_axis (- (w/2)) (w/2 + 1)).
  assert (E : map (fun g : Z * Z => (- fst g, - snd g)%Z) (concat (map (fun y => map (fun x => (y, x)) C) R))
            = concat (map (fun y => map (fun x => (y, x)) (map Z.opp C)) (map Z.opp R))).
  { rewrite concat_map, !map_map. f_equal. apply map_ext. intros y.
    rewrite !map_map. reflexivity. }
  rewrite E. unfold R at 1, C at 1. rewrite !mgrid_axis_rev. fold R. fold C.
  assert (P1 : forall l : list Z, Permutation (concat (map (fun y => map (fun x => (y, x)) (rev C)) l))
                                (concat (map (fun y => map (fun x : Z => (y, x)) C) l))).
  { induction l as [|y l IH]; simpl; auto. apply Permutation_app; auto.
    apply Permutation_map. symmetry. apply Permutation_rev. }
  rewrite P1.
  assert (P2 : forall (f : Z -> list (Z*Z)) l1 l2, Permutation l1 l2 ->
      Permutation (concat (map f l1)) (concat (map f l2))).
  { intros f l1 l2. induction 1; simpl; auto.
    - apply Permutation_app_head; auto.
    - rewrite !app_assoc. apply Permutation_app_tail. apply Permutation_app_comm.
    - eapply Permutation_trans; eauto. }
  apply P2. symmetry. apply Permutation_rev.
Qed.

Lemma asm_centre_fixed kernel h w coord target :
  (forall y x, (0 < kernel y x)%R) -> (forall y x, kernel (- y)%Z (- x)%Z = kernel y x) ->
  (coord = fst \/ coord = snd) ->
  (0 < h)%Z -> (0 < w)%Z -> (h mod 4 = 1)%Z -> (w mod 4 = 1)%Z ->
  asm_error kernel h w ((h / 2)%Z, (w / 2)%Z) coord target = 0%R.
Proof.
  intros Hpos Hsym Hcoord Hh Hw H4h H4w.
  assert (Hr : forall z, (z mod 4 = 1)%Z -> round_half z = (z / 2)%Z /\ (z mod 2 = 1)%Z).
  { intros z Hz. pose proof (Z.div_mod z 4 ltac:(lia)).
    assert (z / 2 = 2 * (z / 4))%Z.
    { symmetry. apply Z.div_unique with 1%Z; lia. }
    assert (Ez : Z.even z = false).
    { rewrite H, Z.even_add, Z.even_mul. rewrite Hz. reflexivity. }
    split.
    - unfold round_half. rewrite Ez. rewrite H0. rewrite Z.even_mul. reflexivity.
    - rewrite Zmod_even, Ez. reflexivity. }
  destruct (Hr h H4h) as [Rh Mh]. destruct (Hr w H4w) as [Rw Mw].
  set (grid := concat (build_grid h w)).
  assert (HW : forall g, asm_weight kernel h w ((h/2)%Z, (w/2)%Z) g = kernel (fst g) (snd g)).
  { intros g. unfold asm_weight. simpl. rewrite Rh, Rw. f_equal; lia. }
  assert (Hne : grid <> []).
  { unfold grid, build_grid. rewrite Mh, Mw. unfold mgrid_axis.
    assert (0 <= h / 2)%Z by (apply Z.div_pos; lia). assert (0 <= w / 2)%Z by (apply Z.div_pos; lia).
    destruct (Z.to_nat (h / 2 + 1 - - (h / 2))) eqn:E1; [lia|].
    destruct (Z.to_nat (w / 2 + 1 - - (w / 2))) eqn:E2; [lia|]. simpl. discriminate. }
  assert (Htot : sumR (asm_weight kernel h w ((h/2)%Z, (w/2)%Z)) grid <> 0%R).
  { apply Rgt_not_eq. apply sumR_pos; auto. intros a. rewrite HW. apply Hpos. }
  rewrite asm_error_eq by exact Htot. fold grid.
  assert (Hz : sumR (fun g => asm_weight kernel h w ((h/2)%Z, (w/2)%Z) g * IZR (coord g))%R grid = 0%R).
  { set (F := fun g => (asm_weight kernel h w ((h/2)%Z, (w/2)%Z) g * IZR (coord g))%R).
    assert (E : sumR F grid = (-1 * sumR F grid)%R).
    { transitivity (sumR F (map (fun g : Z * Z => (- fst g, - snd g)%Z) grid)).
      { symmetry. apply sumR_perm. apply grid_neg_perm; auto. }
      rewrite sumR_map.
      rewrite <- sumR_scal. apply sumR_ext. intros [y x] _. unfold F. rewrite !HW. simpl.
      rewrite Hsym. destruct Hcoord as [-> | ->]; simpl; rewrite opp_IZR; lra. }
    lra. }
  rewrite Hz. field. exact Htot.
Qed.

(** For sizes that are 3 modulo 4 the half size is rounded up: the centre is mistaken for its neighbour. *)
Lemma round_half_mod4 z : round_half z = (if (z mod 4 =? 3)%Z then (z / 2 + 1)%Z else (z / 2)%Z).
Proof.
  unfold round_half. pose proof (Z.div_mod z 4 ltac:(lia)). pose proof (Z.mod_pos_bound z 4 ltac:(lia)).
  destruct (z mod 4 =? 3)%Z eqn:E.
  - assert (Hz : (z mod 4 = 3)%Z) by lia.
    assert (z / 2 = 2 * (z / 4) + 1)%Z by (symmetry; apply Z.div_unique with 1%Z; lia).
    replace (Z.even z) with false.
    2: { rewrite H, Z.even_add, Z.even_mul, Hz. reflexivity. }
    rewrite H1. rewrite Z.even_add, Z.even_mul. reflexivity.
  - destruct (Z.even z) eqn:Ev; [reflexivity|].
    assert (Hm : (z mod 4 = 1)%Z).
    { assert (z mod 2 = 1)%Z by (rewrite Zmod_even, Ev; reflexivity).
      pose proof (Z.div_mod z 2 ltac:(lia)). 
      assert (z mod 4 = 0 \/ z mod 4 = 1 \/ z mod 4 = 2)%Z as [A|[A|A]] by lia; lia. }
    assert (z / 2 = 2 * (z / 4))%Z by (symmetry; apply Z.div_unique with 1%Z; lia).
    rewrite H1, Z.even_mul. reflexivity.
Qed.

(** Witness: a 3-by-3 window whose response peaks at its centre, with any product kernel that
    decreases with the distance (such as the isotropic Gaussian). *)
Lemma asm_centre_moves (f : nat -> R) (kernel : Z -> Z -> R) target :
  (0 < f 2%nat)%R -> (f 2%nat < f 1%nat)%R -> (f 1%nat < f 0%nat)%R ->
  (forall y x, kernel y x = (f (Z.abs_nat y) * f (Z.abs_nat x))%R) ->
  (asm_error kernel 3 3 (1, 1)%Z fst target < 0)%R.
Proof.
  intros H2 H1 H0 HK.
  assert (E : concat (build_grid 3 3) =
     [(-1,-1);(-1,0);(-1,1);(0,-1);(0,0);(0,1);(1,-1);(1,0);(1,1)]%Z) by reflexivity.
  set (S := (f 0%nat + f 1%nat + f 2%nat)%R).
  assert (HS : (0 < S)%R) by (unfold S; lra).
  assert (W : forall a b, asm_weight kernel 3 3 (1,1)%Z (a,b) = kernel (a - 1)%Z (b - 1)%Z).
  { intros a b. unfold asm_weight, round_half. cbn -[Z.sub]. f_equal; lia. }
  assert (Z1 : Z.abs_nat (-1 - 1) = 2) by reflexivity.
  assert (Z2 : Z.abs_nat (0 - 1) = 1) by reflexivity.
  assert (Z3 : Z.abs_nat (1 - 1) = 0) by reflexivity.
  assert (Htot : sumR (asm_weight kernel 3 3 (1,1)%Z) (concat (build_grid 3 3)) = (S * S)%R).
  { rewrite E. cbn [sumR fold_right]. rewrite !W, !HK, Z1, Z2, Z3. unfold S. ring. }
  rewrite asm_error_eq by (rewrite Htot; apply Rgt_not_eq; nra).
  rewrite Htot.
  assert (Hnum : sumR (fun g => asm_weight kernel 3 3 (1,1)%Z g * IZR (fst g))%R (concat (build_grid 3 3))
            = ((f 0%nat - f 2%nat) * S)%R).
  { rewrite E. cbn [sumR fold_right fst]. rewrite !W, !HK, Z1, Z2, Z3. unfold S. ring. }
  rewrite Hnum.
  replace (- ((f 0%nat - f 2%nat) * S) / (S * S))%R with (- ((f 0%nat - f 2%nat) / S))%R by (field; lra).
  assert (0 < (f 0%nat - f 2%nat) / S)%R by (apply Rdiv_lt_0_compat; lra). lra.
Qed.

Lemma reyield_id {A} (l : list A) : reyield l = l.
Proof. induction l; simpl; congruence. Qed.

Lemma print_progress_id {A} (mpp : list A -> list A) (verbose : bool) l :
  (forall x, mpp x = x) -> print_progress mpp verbose l = l.
Proof. intros H. unfold print_progress. destruct verbose; rewrite reyield_id; auto. Qed.

(** A kernel concentrated at zero moves the landmark exactly onto the peak, for sizes 1 modulo 4. *)
Lemma sumR_zero {A} (f : A -> R) l : (forall a, In a l -> f a = 0%R) -> sumR f l = 0%R.
Proof. induction l; simpl; intros H; auto. rewrite H, IHl by auto. lra. Qed.

Lemma sumR_single {A} (f : A -> R) l a : NoDup l -> In a l ->
  (forall b, In b l -> b <> a -> f b = 0%R) -> sumR f l = f a.
Proof.
  induction l as [|x l IH]; simpl; intros Hnd Hin Hz; [tauto|].
  inversion Hnd; subst. destruct Hin as [->|Hin].
  - rewrite sumR_zero. lra. intros b Hb. apply Hz; auto. congruence.
  - rewrite Hz; auto. 2: { intros ->; auto. }
    rewrite IH; auto. lra.
Qed.

Lemma mgrid_axis_NoDup lo hi : NoDup (mgrid_axis lo hi).
Proof.
  unfold mgrid_axis. apply FinFun.Injective_map_NoDup; [|apply seq_NoDup]. intros a b H. lia.
Qed.

Lemma mgrid_axis_In lo hi z : In z (mgrid_axis lo hi) <-> (lo <= z < hi)%Z.
Proof.
  unfold mgrid_axis. rewrite in_map_iff. split.
  - intros (k & <- & Hk). apply in_seq in Hk. lia.
  - intros H. exists (Z.to_nat (z - lo)). split; [lia|]. apply in_seq. lia.
Qed.

Lemma sumR_grid (F : Z * Z -> R) rows cols :
  sumR F (concat (map (fun y => map (fun x => (y, x)) cols) rows))
  = sumR (fun y => sumR (fun x => F (y, x)) cols) rows.
Proof.
  rewrite sumR_concat, sumR_map. apply sumR_ext. intros y _. rewrite sumR_map. reflexivity.
Qed.

Lemma sumR_grid_single (F : Z * Z -> R) rows cols y0 x0 :
  NoDup rows -> NoDup cols -> In y0 rows -> In x0 cols ->
  (forall y x, (y, x) <> (y0, x0) -> F (y, x) = 0%R) ->
  sumR F (concat (map (fun y => map (fun x => (y, x)) cols) rows)) = F (y0, x0).
Proof.
  intros Hr Hc Hy Hx HF. rewrite sumR_grid.
  rewrite (sumR_single _ rows y0); auto.
  - rewrite (sumR_single _ cols x0); auto. intros b _ Hb. apply HF. congruence.
  - intros b _ Hb. apply sumR_zero. intros x _. apply HF. congruence.
Qed.

Lemma asm_peak kernel c h w i j coord target :
  (0 < c)%R ->
  (forall y x, kernel y x = if ((y =? 0) && (x =? 0))%Z then c else 0%R) ->
  (coord = fst \/ coord = snd) ->
  (h mod 4 = 1)%Z -> (w mod 4 = 1)%Z -> (0 <= i < h)%Z -> (0 <= j < w)%Z ->
  asm_error kernel h w (i, j) coord target = IZR (coord (i - h / 2, j - w / 2)%Z).
Proof.
  intros Hc HK Hcoord H4h H4w Hi Hj.
  assert (Rh : round_half h = (h / 2)%Z) by (rewrite round_half_mod4, H4h; reflexivity).
  assert (Rw : round_half w = (w / 2)%Z) by (rewrite round_half_mod4, H4w; reflexivity).
  assert (Hm : forall z, (z mod 4 = 1)%Z -> (z mod 2 = 1 /\ z = 2 * (z / 2) + 1)%Z).
  { intros z Hz. pose proof (Z.div_mod z 4 ltac:(lia)).
    assert (z / 2 = 2 * (z / 4))%Z by (symmetry; apply Z.div_unique with 1%Z; lia).
    pose proof (Z.div_mod z 2 ltac:(lia)). lia. }
  destruct (Hm h H4h) as [Mh Eh]. destruct (Hm w H4w) as [Mw Ew].
  assert (HW : forall y x, asm_weight kernel h w (i, j) (y, x)
      = if ((y =? h / 2 - i) && (x =? w / 2 - j))%Z then c else 0%R).
  { intros y x. unfold asm_weight. cbn [fst snd]. rewrite Rh, Rw, HK.
    replace (i - h / 2 + y =? 0)%Z with (y =? h / 2 - i)%Z by lia.
    replace (j - w / 2 + x =? 0)%Z with (x =? w / 2 - j)%Z by lia. reflexivity. }
  assert (Single : forall F, (forall y x, (y, x) <> (h / 2 - i, w / 2 - j)%Z -> F (y, x) = 0%R) ->
      sumR F (concat (build_grid h w)) = F (h / 2 - i, w / 2 - j)%Z).
  { intros F HF. unfold build_grid. rewrite Mh, Mw. apply sumR_grid_single; auto using mgrid_axis_NoDup;
    apply mgrid_axis_In; lia. }
  assert (Hne : forall y x, (y, x) <> (h / 2 - i, w / 2 - j)%Z ->
     ((y =? h / 2 - i) && (x =? w / 2 - j))%Z = false).
  { intros y x H. apply Bool.not_true_is_false. intros H'. apply andb_prop in H'.
    destruct H' as [A B]. apply H. f_equal; lia. }
  assert (Htot : sumR (asm_weight kernel h w (i, j)) (concat (build_grid h w)) = c).
  { rewrite Single.
    - rewrite HW, !Z.eqb_refl. reflexivity.
    - intros y x H. rewrite HW, Hne; auto. }
  rewrite asm_error_eq by (rewrite Htot; lra). rewrite Htot, Single.
  - rewrite HW, !Z.eqb_refl. cbn [andb].
    destruct Hcoord as [-> | ->]; cbn [fst snd]; rewrite !minus_IZR; field; lra.
  - intros y x H. rewrite HW, Hne; auto. lra.
Qed.
