(** C26: incremental correlation filters. *)
From Coq Require Import List Arith Reals Lia Lra.
From Verif.Model Require Import Py CorrFilter.
From Verif.Spec Require Import CorrFilter.
From Verif.Proofs Require Import CorrFilter LeastSquares.
Import ListNotations.
Local Open Scope R_scope.

(** Batch training returns the sums over the images, and the filter that belongs to them. *)
Theorem c26_batch : forall (I : Type) (fft : I -> nat -> nat -> R * R) y l X, X <> [] -> 0 < l ->
  exists g a b, mosse fft y l X = Ok (g, a, b) /\ is_filter l g a b /\
    (forall c w, a c w = cross_of fft y X c w) /\ (forall c w, b c w = auto_of fft X c w).
Proof.
  intros I fft y l X Hne Hl. exists (mosse_filter l (cross_energy fft y X) (auto_energy fft X)), (cross_energy fft y X), (auto_energy fft X).
  split; [destruct X; [congruence|reflexivity]|]. split; [|split; [apply cross_energy_eq|apply auto_energy_eq]].
  apply mosse_filter_spec; intros c w; rewrite auto_energy_eq; destruct (auto_real fft X c w); [assumption|lra].
Qed.
Print Assumptions c26_batch.

(** Incremental training with equal effective numbers of old and new images (n_ab f = n_x): the filter is the one a
    batch training on all images gives with twice the regularisation, not with the same. *)
Theorem c26_equal_halves_partial : forall (I : Type) (fft : I -> nat -> nat -> R * R) y l X1 X2 f, X1 <> [] -> X2 <> [] -> 0 < l ->
  INR (length X1) * f = INR (length X2) ->
  exists g1 a1 b1 g a b g' a' b', mosse fft y l X1 = Ok (g1, a1, b1) /\
    imosse fft y l a1 b1 (INR (length X1)) X2 f = Ok (g, a, b) /\
    mosse fft y (2 * l) (X1 ++ X2) = Ok (g', a', b') /\ forall c w, g c w = g' c w.
Proof.
  intros I fft y l X1 X2 f H1 H2 Hl Hf.
  assert (K : 0 < INR (length X2)) by (apply lt_0_INR; destruct X2; [congruence|cbn; lia]).
  assert (E1 : mosse fft y l X1 = Ok (mosse_filter l (cross_energy fft y X1) (auto_energy fft X1), cross_energy fft y X1, auto_energy fft X1)) by (destruct X1; [congruence|reflexivity]).
  assert (E2 : mosse fft y (2 * l) (X1 ++ X2) = Ok (mosse_filter (2 * l) (cross_energy fft y (X1 ++ X2)) (auto_energy fft (X1 ++ X2)), cross_energy fft y (X1 ++ X2), auto_energy fft (X1 ++ X2)))
    by (destruct X1; [congruence|reflexivity]).
  unfold imosse. rewrite Hf. destruct (Req_EM_T (INR (length X2) + INR (length X2)) 0) as [Z|_]; [lra|].
  do 9 eexists. split; [exact E1|]. split; [reflexivity|]. split; [exact E2|].
  assert (Hh : INR (length X2) / (INR (length X2) + INR (length X2)) = / 2) by (field; lra). rewrite Hh.
  apply (filter_unique (2 * l)) with (xy := cross_energy fft y (X1 ++ X2)) (xx := auto_energy fft (X1 ++ X2)).
  - intros c w. rewrite auto_energy_eq. apply auto_real.
  - intros c w. rewrite auto_energy_eq. destruct (auto_real fft (X1 ++ X2) c w). lra.
  - intros c w. rewrite cross_energy_eq, auto_energy_eq. unfold cross_of, auto_of. rewrite !csum_app. fold (cross_of fft y X1 c w) (cross_of fft y X2 c w) (auto_of fft X1 c w) (auto_of fft X2 c w).
    unfold mosse_filter. rewrite !cross_energy_eq, !auto_energy_eq. destruct (auto_real fft X1 c w) as [R1 P1], (auto_real fft X2 c w) as [R2 P2].
    destruct (auto_of fft X1 c w) as [x1 y1], (auto_of fft X2 c w) as [x2 y2]. cbn [fst snd] in *. subst y1 y2.
    destruct (cross_of fft y X1 c w) as [u1 v1], (cross_of fft y X2 c w) as [u2 v2].
    apply pair_eq; unfold times, cdiv, cscale, cmul, conj, norm2, cadd, creal; cbn [fst snd]; field; lra.
  - apply mosse_filter_spec; intros c w; rewrite auto_energy_eq; destruct (auto_real fft (X1 ++ X2) c w); [assumption|lra].
Qed.
Print Assumptions c26_equal_halves_partial.

(** In general the incremental filter belongs to the weighted energies, not to the sums over all images. *)
Theorem c26_increment : forall (I : Type) (fft : I -> nat -> nat -> R * R) y l X1 X2 f, X1 <> [] -> X2 <> [] -> 0 < l -> 0 <= f ->
  exists g1 a1 b1 g a b, mosse fft y l X1 = Ok (g1, a1, b1) /\
    imosse fft y l a1 b1 (INR (length X1)) X2 f = Ok (g, a, b) /\ is_filter l g a b /\
    let m1 := INR (length X1) * f in let m2 := INR (length X2) in
    forall c w,
      times (m1 + m2, 0) (a c w) = wsum [m1; m2] [cross_of fft y X1 c w; cross_of fft y X2 c w] /\
      times (m1 + m2, 0) (b c w) = wsum [m1; m2] [auto_of fft X1 c w; auto_of fft X2 c w].
Proof.
  intros I fft y l X1 X2 f H1 H2 Hl Hf.
  assert (K : 0 < INR (length X2)) by (apply lt_0_INR; destruct X2; [congruence|cbn; lia]).
  assert (M : 0 <= INR (length X1) * f) by (apply Rmult_le_pos; [apply pos_INR|exact Hf]).
  assert (E1 : mosse fft y l X1 = Ok (mosse_filter l (cross_energy fft y X1) (auto_energy fft X1), cross_energy fft y X1, auto_energy fft X1)) by (destruct X1; [congruence|reflexivity]).
  unfold imosse. destruct (Req_EM_T (INR (length X1) * f + INR (length X2)) 0) as [Z|_]; [lra|].
  do 6 eexists. split; [exact E1|]. split; [reflexivity|]. split.
  - apply mosse_filter_spec; intros c w; rewrite !auto_energy_eq; destruct (auto_real fft X1 c w) as [R1 P1], (auto_real fft X2 c w) as [R2 P2]; unfold cadd, cscale; cbn [fst snd].
    + rewrite R1, R2. ring.
    + apply Rplus_le_lt_0_compat; [|exact Hl]. assert (0 < / (INR (length X1) * f + INR (length X2))) by (apply Rinv_0_lt_compat; lra).
      apply Rplus_le_le_0_compat; (apply Rmult_le_pos; [apply Rmult_le_pos; lra|assumption]).
  - cbn zeta. intros c w. rewrite !auto_energy_eq, !cross_energy_eq.
    split; apply pair_eq; unfold times, wsum, cadd, cscale; cbn [fst snd combine fold_right]; field; lra.
Qed.
Print Assumptions c26_increment.

(** One image of one pixel of value 1, seen twice: batch training gives the filter 2/3, incremental training 1/2. *)
Theorem c26_not_batch_refuted : exists (fft : unit -> nat -> nat -> R * R) y l X1 X2 g1 a1 b1 g a b g' a' b',
  mosse fft y l X1 = Ok (g1, a1, b1) /\ imosse fft y l a1 b1 (INR (length X1)) X2 1 = Ok (g, a, b) /\
  mosse fft y l (X1 ++ X2) = Ok (g', a', b') /\ g 0%nat 0%nat = (/ 2, 0) /\ g' 0%nat 0%nat = (2 / 3, 0).
Proof.
  exists (fun _ _ _ => (1, 0)), (fun _ => (1, 0)), 1, [tt], [tt].
  unfold imosse. cbn [length]. destruct (Req_EM_T (INR 1 * 1 + INR 1) 0) as [Z|_]; [cbn in Z; lra|].
  do 9 eexists. split; [reflexivity|]. split; [reflexivity|]. split; [reflexivity|].
  split; apply pair_eq; unfold mosse_filter, cdiv, cross_energy, auto_energy, cscale, cmul, conj, norm2, cadd, creal, czero; cbn [fold_left app fst snd INR]; field.
Qed.
Print Assumptions c26_not_batch_refuted.

(** Forgetting everything (f = 0) trains on the new images alone. *)
Theorem c26_forget_all : forall (I : Type) (fft : I -> nat -> nat -> R * R) y l A B n X, X <> [] ->
  exists g a b g' a' b', imosse fft y l A B n X 0 = Ok (g, a, b) /\ mosse fft y l X = Ok (g', a', b') /\
    forall c w, g c w = g' c w /\ a c w = a' c w /\ b c w = b' c w.
Proof.
  intros I fft y l A B n X H.
  assert (K : 0 < INR (length X)) by (apply lt_0_INR; destruct X; [congruence|cbn; lia]).
  assert (E1 : mosse fft y l X = Ok (mosse_filter l (cross_energy fft y X) (auto_energy fft X), cross_energy fft y X, auto_energy fft X)) by (destruct X; [congruence|reflexivity]).
  unfold imosse. destruct (Req_EM_T (n * 0 + INR (length X)) 0) as [Z|_]; [lra|]. do 6 eexists. split; [reflexivity|]. split; [exact E1|].
  intros c w.
  assert (EA : cadd (cscale (n * 0 / (n * 0 + INR (length X))) (A c w)) (cscale (INR (length X) / (n * 0 + INR (length X))) (cross_energy fft y X c w)) = cross_energy fft y X c w)
    by (apply pair_eq; unfold cadd, cscale; cbn [fst snd]; field; lra).
  assert (EB : cadd (cscale (n * 0 / (n * 0 + INR (length X))) (B c w)) (cscale (INR (length X) / (n * 0 + INR (length X))) (auto_energy fft X c w)) = auto_energy fft X c w)
    by (apply pair_eq; unfold cadd, cscale; cbn [fst snd]; field; lra).
  unfold mosse_filter. rewrite EA, EB. auto.
Qed.
Print Assumptions c26_forget_all.

(** *** Expert ensembles, any history *)
Lemma imosse_step {I} fft y l : forall a b n (X : list I), 0 < n -> exists fab, imosse fft y l a b n X 1 = Ok fab /\
  forall c w, snd (fst fab) c w = cadd (cscale (n / (n + INR (length X))) (a c w)) (cscale (INR (length X) / (n + INR (length X))) (cross_of fft y X c w)) /\
    snd fab c w = cadd (cscale (n / (n + INR (length X))) (b c w)) (cscale (INR (length X) / (n + INR (length X))) (auto_of fft X c w)).
Proof.
  intros a b n X Hn. pose proof (pos_INR (length X)). unfold imosse. rewrite Rmult_1_r. destruct (Req_EM_T (n + INR (length X)) 0) as [Z|_]; [lra|].
  eexists. split; [reflexivity|]. intros c w. cbn [fst snd]. rewrite cross_energy_eq, auto_energy_eq. auto.
Qed.
Lemma imccf_step {I} fft y l solve : forall a b n (X : list I), 0 < n -> exists fab, imccf fft y l solve a b n X 1 = Ok fab /\
  forall c c' w, snd (fst fab) c w = cadd (cscale (n / (n + INR (length X))) (a c w)) (cscale (INR (length X) / (n + INR (length X))) (cross_of fft y X c w)) /\
    snd fab c c' w = cadd (cscale (n / (n + INR (length X))) (b c c' w)) (cscale (INR (length X) / (n + INR (length X))) (auto_blocks_of fft X c c' w)).
Proof.
  intros a b n X Hn. pose proof (pos_INR (length X)). unfold imccf. rewrite Rmult_1_r. destruct (Req_EM_T (n + INR (length X)) 0) as [Z|_]; [lra|].
  eexists. split; [reflexivity|]. intros c c' w. cbn [fst snd]. rewrite cross_energy_eq, auto_blocks_eq. auto.
Qed.

(** After training on X0 and any number of increments, the stored energies are a weighted mean of the energies of
    the batches: positive weights of total 1.  (Batch training on everything has weight 1 for each batch.) *)
Theorem c26_history_refuted : forall (I : Type) (fft : I -> nat -> nat -> R * R) y l solve X0 batches,
  X0 <> [] -> Forall (fun b : list I => b <> []) batches ->
  exists ws, length ws = S (length batches) /\ Forall (fun w => 0 < w) ws /\ fold_right Rplus 0 ws = 1 /\
    (exists e0 e, train_expert (mosse fft y l) X0 = Ok e0 /\
       increments (fun a b n X => imosse fft y l a b n X 1) e0 batches = Ok e /\
       n_images e = (length X0 + list_sum (map (@length I) batches))%nat /\
       forall c w, ex_a e c w = wsum ws (map (fun b => cross_of fft y b c w) (X0 :: batches)) /\
                   ex_b e c w = wsum ws (map (fun b => auto_of fft b c w) (X0 :: batches))) /\
    (exists e0 e, train_expert (mccf fft y l solve) X0 = Ok e0 /\
       increments (fun a b n X => imccf fft y l solve a b n X 1) e0 batches = Ok e /\
       n_images e = (length X0 + list_sum (map (@length I) batches))%nat /\
       forall c c' w, ex_a e c w = wsum ws (map (fun b => cross_of fft y b c w) (X0 :: batches)) /\
                      ex_b e c c' w = wsum ws (map (fun b => auto_blocks_of fft b c c' w) (X0 :: batches))).
Proof.
  intros I fft y l solve X0 batches H0 Hb. exists (hw (length X0) [1] (map (@length I) batches)).
  assert (L0 : (0 < length X0)%nat) by (destruct X0; [congruence|cbn; lia]).
  assert (Hk : Forall (fun k => (0 < k)%nat) (map (@length I) batches)).
  { apply Forall_forall. intros k Hk. apply in_map_iff in Hk. destruct Hk as (b & <- & Hin). rewrite Forall_forall in Hb. specialize (Hb b Hin). destruct b; [congruence|cbn; lia]. }
  destruct (hw_facts (map (@length I) batches) (length X0) [1] Hk) as (T1 & T2 & T3); [cbn; lra|repeat constructor; lra|].
  rewrite map_length in T3. split; [exact T3|]. split; [exact T2|]. split; [exact T1|].
  assert (W1 : forall v : R * R, wsum [1] [v] = v) by (intros v; apply pair_eq; cbn; ring).
  split.
  - assert (E1 : mosse fft y l X0 = Ok (mosse_filter l (cross_energy fft y X0) (auto_energy fft X0), cross_energy fft y X0, auto_energy fft X0)) by (destruct X0; [congruence|reflexivity]).
    unfold train_expert. rewrite E1. cbn [bind fst snd]. eexists. 
    set (e0 := mk_expert (length X0) (mosse_filter l (cross_energy fft y X0) (auto_energy fft X0)) (cross_energy fft y X0) (auto_energy fft X0)).
    assert (Hist : forall (qa : (nat -> nat -> R * R) -> (nat -> nat -> R * R) -> R * R) Sa,
      (forall a b n X, 0 < n -> exists fab, imosse fft y l a b n X 1 = Ok fab /\
         qa (snd (fst fab)) (snd fab) = cadd (cscale (n / (n + INR (length X))) (qa a b)) (cscale (INR (length X) / (n + INR (length X))) (Sa X))) ->
      qa (ex_a e0) (ex_b e0) = Sa X0 ->
      exists e', increments (fun a b n X => imosse fft y l a b n X 1) e0 batches = Ok e' /\
        n_images e' = (length X0 + list_sum (map (@length I) batches))%nat /\
        qa (ex_a e') (ex_b e') = wsum (hw (length X0) [1] (map (@length I) batches)) (map Sa (X0 :: batches))).
    { intros qa Sa Hstep Hq. apply (history (fun a b n X => imosse fft y l a b n X 1) qa Sa Hstep batches e0 [1] [X0] Hb L0 eq_refl).
      cbn [map]. rewrite W1. exact Hq. }
    destruct (Hist (fun a b => a 0%nat 0%nat) (fun b => cross_of fft y b 0%nat 0%nat)) as (e & Ee & Ne & _).
    { intros a b n X Hn. destruct (imosse_step fft y l a b n X Hn) as (fab & E & Q). exists fab. split; [exact E|apply Q]. }
    { cbn [e0 ex_a]. apply cross_energy_eq. }
    exists e. split; [reflexivity|]. split; [exact Ee|]. split; [exact Ne|]. intros c w. split.
    + destruct (Hist (fun a b => a c w) (fun b => cross_of fft y b c w)) as (e' & Ee' & _ & Q).
      { intros a b n X Hn. destruct (imosse_step fft y l a b n X Hn) as (fab & E & Q). exists fab. split; [exact E|apply Q]. }
      { cbn [e0 ex_a]. apply cross_energy_eq. }
      assert (e' = e) by congruence. subst e'. exact Q.
    + destruct (Hist (fun a b => b c w) (fun b => auto_of fft b c w)) as (e' & Ee' & _ & Q).
      { intros a b n X Hn. destruct (imosse_step fft y l a b n X Hn) as (fab & E & Q). exists fab. split; [exact E|apply Q]. }
      { cbn [e0 ex_b]. apply auto_energy_eq. }
      assert (e' = e) by congruence. subst e'. exact Q.
  - assert (E1 : mccf fft y l solve X0 = Ok (solve (regularised l (auto_blocks fft X0)) (cross_energy fft y X0), cross_energy fft y X0, auto_blocks fft X0)) by (destruct X0; [congruence|reflexivity]).
    unfold train_expert. rewrite E1. cbn [bind fst snd]. eexists.
    set (e0 := mk_expert (length X0) (solve (regularised l (auto_blocks fft X0)) (cross_energy fft y X0)) (cross_energy fft y X0) (auto_blocks fft X0)).
    assert (Hist : forall (qa : (nat -> nat -> R * R) -> (nat -> nat -> nat -> R * R) -> R * R) Sa,
      (forall a b n X, 0 < n -> exists fab, imccf fft y l solve a b n X 1 = Ok fab /\
         qa (snd (fst fab)) (snd fab) = cadd (cscale (n / (n + INR (length X))) (qa a b)) (cscale (INR (length X) / (n + INR (length X))) (Sa X))) ->
      qa (ex_a e0) (ex_b e0) = Sa X0 ->
      exists e', increments (fun a b n X => imccf fft y l solve a b n X 1) e0 batches = Ok e' /\
        n_images e' = (length X0 + list_sum (map (@length I) batches))%nat /\
        qa (ex_a e') (ex_b e') = wsum (hw (length X0) [1] (map (@length I) batches)) (map Sa (X0 :: batches))).
    { intros qa Sa Hstep Hq. apply (history (fun a b n X => imccf fft y l solve a b n X 1) qa Sa Hstep batches e0 [1] [X0] Hb L0 eq_refl).
      cbn [map]. rewrite W1. exact Hq. }
    destruct (Hist (fun a b => a 0%nat 0%nat) (fun b => cross_of fft y b 0%nat 0%nat)) as (e & Ee & Ne & _).
    { intros a b n X Hn. destruct (imccf_step fft y l solve a b n X Hn) as (fab & E & Q). exists fab. split; [exact E|apply (Q 0%nat 0%nat 0%nat)]. }
    { cbn [e0 ex_a]. apply cross_energy_eq. }
    exists e. split; [reflexivity|]. split; [exact Ee|]. split; [exact Ne|]. intros c c' w. split.
    + destruct (Hist (fun a b => a c w) (fun b => cross_of fft y b c w)) as (e' & Ee' & _ & Q).
      { intros a b n X Hn. destruct (imccf_step fft y l solve a b n X Hn) as (fab & E & Q). exists fab. split; [exact E|apply (Q c c' w)]. }
      { cbn [e0 ex_a]. apply cross_energy_eq. }
      assert (e' = e) by congruence. subst e'. exact Q.
    + destruct (Hist (fun a b => b c c' w) (fun b => auto_blocks_of fft b c c' w)) as (e' & Ee' & _ & Q).
      { intros a b n X Hn. destruct (imccf_step fft y l solve a b n X Hn) as (fab & E & Q). exists fab. split; [exact E|apply (Q c c' w)]. }
      { cbn [e0 ex_b]. apply auto_blocks_eq. }
      assert (e' = e) by congruence. subst e'. exact Q.
Qed.
Print Assumptions c26_history_refuted.

(** The ensemble counts the new images twice: after training on n1 images, an increment with n2 weighs the old
    energies with (n1 + n2) / (n1 + 2 n2) instead of n1 / (n1 + n2). *)
Theorem c26_ensemble_weight_refuted : forall (I : Type) (fft : I -> nat -> nat -> R * R) y l X0 X1, X0 <> [] -> X1 <> [] ->
  exists e0 e, train_expert (mosse fft y l) X0 = Ok e0 /\
    increment_expert (fun a b n X => imosse fft y l a b n X 1) e0 X1 = Ok e /\
    let n1 := INR (length X0) in let n2 := INR (length X1) in
    (forall c w, ex_a e c w = wsum [(n1 + n2) / (n1 + 2 * n2); n2 / (n1 + 2 * n2)] [cross_of fft y X0 c w; cross_of fft y X1 c w]) /\
    (n1 + n2) / (n1 + 2 * n2) <> n1 / (n1 + n2).
Proof.
  intros I fft y l X0 X1 H0 H1.
  assert (K0 : 0 < INR (length X0)) by (apply lt_0_INR; destruct X0; [congruence|cbn; lia]).
  assert (K1 : 0 < INR (length X1)) by (apply lt_0_INR; destruct X1; [congruence|cbn; lia]).
  assert (E1 : mosse fft y l X0 = Ok (mosse_filter l (cross_energy fft y X0) (auto_energy fft X0), cross_energy fft y X0, auto_energy fft X0)) by (destruct X0; [congruence|reflexivity]).
  unfold train_expert. rewrite E1. cbn [bind fst snd]. exists (mk_expert (length X0) (mosse_filter l (cross_energy fft y X0) (auto_energy fft X0)) (cross_energy fft y X0) (auto_energy fft X0)).
  unfold increment_expert.
  destruct (imosse_step fft y l (cross_energy fft y X0) (auto_energy fft X0) (INR (length X0 + length X1)) X1) as (fab & E & Q); [rewrite plus_INR; lra|].
  exists (mk_expert (length X0 + length X1) (fst (fst fab)) (snd (fst fab)) (snd fab)). split; [reflexivity|].
  split; [cbn [n_images ex_a ex_b]; rewrite E; reflexivity|]. cbn zeta. split.
  - intros c w. cbn [ex_a]. destruct (Q c w) as [-> _]. rewrite cross_energy_eq, plus_INR.
    apply pair_eq; unfold wsum, cadd, cscale; cbn [fst snd combine fold_right]; field; lra.
  - intros N. assert ((INR (length X0) + INR (length X1)) * (INR (length X0) + INR (length X1)) = INR (length X0) * (INR (length X0) + 2 * INR (length X1))).
    { apply (f_equal (fun t => t * (INR (length X0) + 2 * INR (length X1)) * (INR (length X0) + INR (length X1)))) in N. field_simplify in N; lra. }
    assert (0 < INR (length X1) * INR (length X1)) by (apply Rmult_lt_0_compat; assumption). lra.
Qed.
Print Assumptions c26_ensemble_weight_refuted.

Example c26_example : let fft := fun (x : R) (_ _ : nat) => (x, 0) in
  exists g a b, mosse fft (fun _ => (1, 0)) 1 [1; 2] = Ok (g, a, b) /\ a 0%nat 0%nat = (3, 0) /\ b 0%nat 0%nat = (5, 0) /\ g 0%nat 0%nat = (/ 2, 0).
Proof.
  intros fft. do 3 eexists. split; [reflexivity|]. unfold fft.
  repeat split; apply pair_eq; unfold mosse_filter, cdiv, cross_energy, auto_energy, cscale, cmul, conj, norm2, cadd, creal, czero; cbn [fold_left fst snd]; field.
Qed.

(** ** C66: correlation filters are the regularised least squares filters *)
(** mosse: every channel's filter is, at every frequency, the one whose responses to the training images fit the desired
    response best, with [l] times its power added. *)
Theorem c66_mosse : forall (I : Type) (fft : I -> nat -> nat -> R * R) y l X, X <> [] -> 0 < l ->
  exists g a b, mosse fft y l X = Ok (g, a, b) /\
    forall c w, best_filter 1 l (y w) (map (fun x => (1, fun _ => fft x c w)) X) (fun _ => g c w).
Proof.
  intros I fft y l X Hne Hl. destruct (c26_batch I fft y l X Hne Hl) as (g & a & b & E & F & Ea & Eb). exists g, a, b. split; [exact E|].
  intros c w. apply (mosse_best y l a b g c w).
  - intros d Hd. apply in_map_iff in Hd. destruct Hd as (x & <- & _). cbn. lra.
  - exact F.
  - rewrite Ea. symmetry. change (map (fun x => (1, fun _ => fft x c w)) X) with (weigh (fun x (_ : nat) w => fft x c w) 1 w X).
    rewrite wcross_weigh. apply pair_eq; cbn; ring.
  - rewrite Eb. symmetry. change (map (fun x => (1, fun _ => fft x c w)) X) with (weigh (fun x (_ : nat) w => fft x c w) 1 w X).
    rewrite wauto_weigh. apply pair_eq; cbn; ring.
Qed.
Print Assumptions c66_mosse.

(** mccf with [k] channels, whose responses are summed. *)
Theorem c66_mccf : forall (I : Type) (fft : I -> nat -> nat -> R * R) y l k solve X, solver k solve -> X <> [] -> 0 < l ->
  exists g a b, mccf fft y l solve X = Ok (g, a, b) /\
    forall w, best_filter k l (y w) (map (fun x => (1, fun c => fft x c w)) X) (fun c => g c w).
Proof.
  intros I fft y l k solve X Hs Hne Hl.
  exists (solve (regularised l (auto_blocks fft X)) (cross_energy fft y X)), (cross_energy fft y X), (auto_blocks fft X).
  split; [destruct X; [congruence|reflexivity]|]. intros w.
  apply (solved_best y l k solve _ _ (fun w => weigh fft 1 w X) Hs Hl).
  - intros w' d. apply weigh_nonneg. lra.
  - intros w' a b. rewrite auto_blocks_eq, wauto_weigh. apply pair_eq; cbn; ring.
  - intros w' a. rewrite cross_energy_eq, wcross_weigh. apply pair_eq; cbn; ring.
Qed.
Print Assumptions c66_mccf.

(** Whatever statistics an increment starts from (also complex ones), the filter it returns solves the equations of the
    statistics it returns. *)
Theorem c66_increment_solves : forall (I : Type) (fft : I -> nat -> nat -> R * R) y l A B n X f g A' B',
  imosse fft y l A B n X f = Ok (g, A', B') -> forall c w, cadd (B' c w) (creal l) <> czero ->
  cmul (cadd (B' c w) (creal l)) (g c w) = A' c w.
Proof.
  intros I fft y l A B n X f g A' B' H c w N. unfold imosse in H. destruct (Req_EM_T _ 0); [discriminate|].
  injection H as <- <- <-. unfold mosse_filter. set (b := cadd _ _) in *. set (a := cadd (cscale _ (A c w)) _).
  destruct a as [a1 a2]. destruct b as [b1 b2]. unfold cdiv, cscale, cmul, conj, norm2. cbn [fst snd].
  assert (D : (b1 ^ 2 + b2 ^ 2 <> 0)%R).
  { intros D. apply N. unfold czero. f_equal; nra. }
  f_equal; field; exact D.
Qed.
Print Assumptions c66_increment_solves.
(** Statistics that are not real. *)
Example c66_increment_solves_ex : exists g A B, imosse (fun (_ : unit) _ _ => (1, 0)) (fun _ => (1, 0)) 1
    (fun _ _ => (1, 1)) (fun _ _ => (0, 1)) 1 [tt] 1 = Ok (g, A, B) /\ snd (B 0%nat 0%nat) <> 0 /\ cadd (B 0%nat 0%nat) (creal 1) <> czero.
Proof.
  unfold imosse. cbn [length INR]. destruct (Req_EM_T _ 0) as [e|_]; [exfalso; lra|]. do 3 eexists. split; [reflexivity|].
  unfold auto_energy, cadd, cscale, cmul, conj, creal, czero. cbn [fst snd fold_left]. split; [lra|]. intros H. injection H. lra.
Qed.

(** After any increments of an expert, with weights for the batches (positive, of total 1) in place of 1 for each image. *)
Theorem c66_increments : forall (I : Type) (fft : I -> nat -> nat -> R * R) y l k solve X0 batches, solver k solve -> 0 < l ->
  X0 <> [] -> Forall (fun b : list I => b <> []) batches ->
  exists ws, length ws = S (length batches) /\ Forall (fun w => 0 < w) ws /\ fold_right Rplus 0 ws = 1 /\
    exists e0 e, train_expert (mccf fft y l solve) X0 = Ok e0 /\ increments (fun a b n X => imccf fft y l solve a b n X 1) e0 batches = Ok e /\
    forall w, best_filter k l (y w)
      (concat (map (fun tX => map (fun x => (fst tX, fun c => fft x c w)) (snd tX)) (combine ws (X0 :: batches))))
      (fun c => ex_filter e c w).
Proof.
  intros I fft y l k solve X0 batches Hs Hl H0 Hb.
  destruct (c26_history_refuted I fft y l solve X0 batches H0 Hb) as (ws & L & P & T & _ & (e0 & e & E0 & E & _ & En)).
  exists ws. split; [exact L|]. split; [exact P|]. split; [exact T|]. exists e0, e. split; [exact E0|]. split; [exact E|]. intros w.
  assert (F : ex_filter e = solve (regularised l (ex_b e)) (ex_a e)).
  { apply (increments_filter (mccf fft y l solve) (fun a b n X => imccf fft y l solve a b n X 1) (fun a b => solve (regularised l b) a)) with (3 := E0) (4 := E).
    - intros X fab. unfold mccf. destruct X; [discriminate|]. intros H; injection H as <-. reflexivity.
    - intros a b n X fab. unfold imccf. destruct (Req_EM_T _ 0); [discriminate|]. intros H; injection H as <-. reflexivity. }
  rewrite F. apply (solved_best y l k solve (ex_a e) (ex_b e) (fun w => weighted fft ws (X0 :: batches) w) Hs Hl).
  - intros w' d. apply weighted_nonneg. exact P.
  - intros w' a b. rewrite wauto_weighted. apply (En a b w').
  - intros w' a. rewrite wcross_weighted. apply (En a a w').
Qed.
Print Assumptions c66_increments.
(** Two channels, solved by Cramer's rule; two batches of images. *)
Example c66_example : solver 2 cramer /\ exists g a b,
  mccf (fun (x : R) c w => (x + INR c, INR w)) (fun w => (1, INR w)) 1 cramer [1; 2] = Ok (g, a, b) /\
  forall w, best_filter 2 1 (1, INR w) (map (fun x => (1, fun c => (x + INR c, INR w))) [1; 2]) (fun c => g c w).
Proof.
  split; [exact cramer_solver|].
  apply (c66_mccf R (fun x c w => (x + INR c, INR w)) (fun w => (1, INR w)) 1 2 cramer [1; 2] cramer_solver); [discriminate|lra].
Qed.
