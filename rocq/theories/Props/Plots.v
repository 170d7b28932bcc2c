(** C111: what the figures show. *)
From Coq Require Import String List QArith Qround ZArith Bool Reals Lia Lqa.
From Verif.Model Require Import Py Result Stats Summary Perturb Plots.
From Verif.Model Require ApsGraph.
From Verif.Spec Require Import Result Stats Plots.
From Verif.Proofs Require Stats Result Ensemble.
From Verif.Props Require Result.
Import ListNotations.
Local Open Scope nat_scope.

Lemma seq_nth_inv n : forall a i x, nth_error (seq a n) i = Some x -> x = a + i /\ i < n.
Proof.
  induction n as [|n IH]; intros a [|i] x H; cbn in H; try discriminate.
  - injection H as <-. lia.
  - apply IH in H. lia.
Qed.
Lemma shows_iteration {Y} (ys : list Y) j y : shows (fst (per_iteration ys)) (snd (per_iteration ys)) j y <-> nth_error ys j = Some y.
Proof.
  unfold shows, per_iteration; cbn [fst snd]. split.
  - intros (i & H1 & H2). apply seq_nth_inv in H1. replace j with i by lia. exact H2.
  - intros H. exists j. split; [|exact H]. assert (L : j < length ys) by (apply nth_error_Some; congruence).
    rewrite (nth_error_nth' _ 0) by (rewrite seq_length; exact L). rewrite seq_nth by exact L. reflexivity.
Qed.

Section Iterations.
  Context {Sh P A C : Type}.
  Notation ires := (iresult Sh P A C).

  (** plot_errors shows at the abscissa j the error of the j-th shape, and nothing else; with a ground truth it is drawn
      whenever the error of every shape is defined. *)
  Theorem c111_errors : forall Er (compute_error : Sh -> Sh -> res Er) (r : ires) fig, plot_errors compute_error r = Ok fig ->
    forall j e, shows (fst fig) (snd fig) j e <->
      exists s gt, nth_error (r_shapes r) j = Some s /\ r_gt r = Some gt /\ compute_error s gt = Ok e.
  Proof.
    intros Er ce r fig. unfold plot_errors, errors. destruct (r_gt r) as [gt|]; [|discriminate].
    destruct (mapM _ _) as [es|] eqn:E; [|discriminate]. cbn [bind]. intros [= <-] j e. rewrite shows_iteration.
    revert es E j. induction (r_shapes r) as [|s l IH]; intros es E j; cbn [mapM] in E.
    - injection E as <-. split; [destruct j; discriminate|]. intros (s & g & H & _). destruct j; discriminate.
    - destruct (ce s gt) as [x|] eqn:Ex; [|discriminate]. cbn [bind] in E. destruct (mapM _ l) as [xs|] eqn:El; [|discriminate].
      cbn [bind] in E. injection E as <-. destruct j as [|j]; [|exact (IH _ eq_refl j)]. cbn. split.
      + intros [= <-]. exists s, gt. auto.
      + intros (s' & g & [= <-] & [= <-] & H). congruence.
  Qed.
  (** The first point is initial_error, the last one final_error. *)
  Theorem c111_errors_ends : forall Er (compute_error : Sh -> Sh -> res Er) (r : ires) fig, consistent r -> plot_errors compute_error r = Ok fig ->
    (exists e, final_error compute_error r = Ok e /\ shows (fst fig) (snd fig) (length (r_shapes r) - 1) e) /\
    (r_initial r <> None -> exists e, initial_error compute_error r = Ok e /\ shows (fst fig) (snd fig) 0 e).
  Proof.
    intros Er ce r fig HC. unfold plot_errors. destruct (errors ce r) as [es|] eqn:E; [|discriminate]. cbn [bind]. intros [= <-].
    destruct (Proofs.Result.errors_spec ce r es HC E) as (L & (e & F1 & F2) & I). split.
    - exists e. split; [exact F1|]. rewrite shows_iteration. rewrite <- L. unfold last_res, nth_res in F2.
      destruct es as [|x es] using rev_ind; [discriminate|]. clear IHes. rewrite rev_app_distr in F2. cbn in F2. injection F2 as ->.
      rewrite app_length. cbn [length]. rewrite nth_error_app2 by lia. replace (_ - _) with 0 by lia. reflexivity.
    - intros Hi. destruct (I Hi) as (e' & A1 & A2). exists e'. rewrite shows_iteration. auto.
  Qed.

  (** plot_displacements shows at the abscissa j the statistic of the move from the j-th to the next shape: there is one point
      less than in plot_errors, and the move that led to the error drawn at j + 1 is drawn at j. *)
  Theorem c111_displacements : forall dist stat (r : ires) fig, plot_displacements dist stat r = Ok fig ->
    exists f : list R -> R,
      (stat = "mean" /\ f = ApsGraph.mean \/ stat = "median" /\ f = median \/ stat = "max" /\ f = rmax \/ stat = "min" /\ f = rmin)%string /\
      forall j x, shows (fst fig) (snd fig) j x <->
        exists s s', nth_error (r_shapes r) j = Some s /\ nth_error (r_shapes r) (S j) = Some s' /\ x = f (dist s s').
  Proof.
    intros dist stat r fig. unfold plot_displacements. destruct (existsb _ _); [|discriminate]. cbn [bind].
    destruct (displacements_stats _ _) as [ds|] eqn:E; [|discriminate]. cbn [bind]. intros [= <-].
    assert (H : forall f : list R -> R, ds = map f (displacements dist r) ->
      forall j x, shows (fst (per_iteration ds)) (snd (per_iteration ds)) j x <->
        exists s s', nth_error (r_shapes r) j = Some s /\ nth_error (r_shapes r) (S j) = Some s' /\ x = f (dist s s')).
    { intros f -> j x. rewrite shows_iteration. unfold displacements. rewrite map_map. generalize (r_shapes r) as l. clear.
      intros l. revert j. induction l as [|s l IH]; intros j.
      - split; [destruct j; discriminate|]. intros (? & ? & H & _). destruct j; discriminate.
      - destruct l as [|s' l].
        + split; [destruct j; discriminate|]. intros (? & ? & _ & H & _). destruct j as [|[|?]]; discriminate.
        + destruct j as [|j]; [|exact (IH j)]. cbn. split.
          * intros [= <-]. eauto.
          * intros (a & b & [= <-] & [= <-] & ->). reflexivity. }
    unfold displacements_stats in E.
    destruct (stat =? "mean")%string eqn:E1; [apply String.eqb_eq in E1; injection E as <-; exists ApsGraph.mean; split; [auto|exact (H _ eq_refl)]|].
    destruct (stat =? "median")%string eqn:E2; [apply String.eqb_eq in E2; injection E as <-; exists median; split; [auto|exact (H _ eq_refl)]|].
    destruct (stat =? "max")%string eqn:E3; [apply String.eqb_eq in E3; injection E as <-; exists rmax; split; [auto|exact (H _ eq_refl)]|].
    destruct (stat =? "min")%string eqn:E4; [apply String.eqb_eq in E4; injection E as <-; exists rmin; split; [auto 6|exact (H _ eq_refl)]|].
    discriminate.
  Qed.
  (** Every documented statistic is drawn, every other name refused. *)
  Theorem c111_displacements_defined : forall dist stat (r : ires),
    (exists fig, plot_displacements dist stat r = Ok fig) <-> In stat ["mean"; "median"; "max"; "min"]%string.
  Proof.
    intros dist stat r. unfold plot_displacements, displacements_stats. split.
    - intros (fig & H). destruct (existsb _ _); [|discriminate]. cbn [bind] in H. revert H.
      destruct (stat =? "mean")%string eqn:E1; [apply String.eqb_eq in E1; cbn; auto|].
      destruct (stat =? "median")%string eqn:E2; [apply String.eqb_eq in E2; cbn; auto|].
      destruct (stat =? "max")%string eqn:E3; [apply String.eqb_eq in E3; cbn; auto|].
      destruct (stat =? "min")%string eqn:E4; [apply String.eqb_eq in E4; cbn; auto 6|]. discriminate.
    - intros [<-|[<-|[<-|[<-|[]]]]]; cbn; eexists; reflexivity.
  Qed.

  (** plot_costs shows the j-th cost at j, and raises exactly when there are no costs. *)
  Theorem c111_costs : forall r : ires,
    (plot_costs r = Err ValueError <-> r_costs r = None) /\
    forall cs, r_costs r = Some cs -> exists fig, plot_costs r = Ok fig /\ forall j c, shows (fst fig) (snd fig) j c <-> nth_error cs j = Some c.
  Proof.
    intros r. unfold plot_costs. destruct (r_costs r) as [cs|]; split.
    - split; discriminate.
    - intros cs' [= <-]. eexists. split; [reflexivity|]. intros j c. apply shows_iteration.
    - split; reflexivity.
    - discriminate.
  Qed.

  (** The axis is labelled "Iteration".  For the result of a non-parametric algorithm with an initial shape the abscissae are
      indeed 0 (the initial shape) to n_iters. *)
  Theorem c111_last_iteration_partial : forall Er (compute_error : Sh -> Sh -> res Er) shapes i gt costs (r : ires) fig,
    nonparametric_result shapes (Some i) gt costs = Ok r -> plot_errors compute_error r = Ok fig ->
    forall j, In j (fst fig) <-> (Z.of_nat j <= r_n_iters r)%Z.
  Proof.
    intros Er ce shapes i gt costs r fig. unfold nonparametric_result, plot_errors, errors. destruct (last_res shapes); [|discriminate].
    cbn [bind]. intros [= <-]. cbn [r_gt r_shapes r_n_iters]. destruct gt as [g|]; [|discriminate].
    destruct (mapM _ _) as [es|] eqn:E; [|discriminate]. cbn [bind]. intros [= <-] j.
    apply Proofs.Ensemble.mapM_length in E. cbn [per_iteration fst]. rewrite in_seq, E. cbn [length]. lia.
  Qed.
  (** For parametric algorithms the reconstructed initial shapes count as iterations: the last abscissa of a multi-scale
      figure lies as many iterations behind n_iters as there are scales. *)
  Theorem c111_last_iteration_refuted : forall Er (compute_error : Sh -> Sh -> res Er) results n affine scale gt (m : mresult Sh P A C) fig,
    multi_parametric results n affine scale gt = Ok m -> r_initial (m_res m) <> None -> plot_errors compute_error (m_res m) = Ok fig ->
    forall j, In j (fst fig) <-> (Z.of_nat j <= r_n_iters (m_res m) + Z.of_nat n)%Z.
  Proof.
    intros Er ce results n affine scale gt m fig. unfold multi_parametric.
    destruct (multi_nonparametric results n affine scale gt) as [b|] eqn:Eb; [|discriminate]. cbn [bind]. intros [= <-].
    cbn [m_res r_initial r_n_iters].
    assert (Hb : r_gt (m_res b) = gt /\ exists shapes i, r_initial (m_res b) = i /\
      r_shapes (m_res b) = match i with Some i => i :: shapes | None => shapes end /\ r_n_iters (m_res b) = Z.of_nat (length shapes)).
    { revert Eb. unfold multi_nonparametric, nonparametric_result. destruct (negb _); [discriminate|].
      destruct (nth_res results 0) as [r0|]; [|discriminate].
      lazymatch goal with |- context [bind (Ok r0) ?f] => change (bind (Ok r0) f) with (f r0); cbv beta end.
      lazymatch goal with |- bind ?x _ = _ -> _ => destruct x as [i|]; [|discriminate] end.
      lazymatch goal with |- bind (Ok ?i) ?f = _ -> _ => change (bind (Ok i) f) with (f i); cbv beta end.
      lazymatch goal with |- bind ?x _ = _ -> _ => destruct x as [ps|]; [|discriminate] end.
      lazymatch goal with |- bind (Ok ?i) ?f = _ -> _ => change (bind (Ok i) f) with (f i); cbv beta end.
      destruct (last_res _) as [f|]; [|discriminate]. cbn [bind]. destruct (concat_attr _) as [cs|]; [|discriminate]. cbn [bind].
      intros [= <-]. cbn. split; [reflexivity|]. eexists _, i. split; [reflexivity|]. split; reflexivity. }
    destruct Hb as (Eg & shapes & i & -> & Es & En).
    intros Hi. unfold plot_errors, errors. cbn [m_res r_gt r_shapes]. rewrite Eg, Es, En. destruct gt as [g|]; [|discriminate].
    destruct i as [i|]; [|congruence].
    destruct (mapM _ _) as [es|] eqn:E; [|discriminate]. cbn [bind]. intros [= <-] j.
    apply Proofs.Ensemble.mapM_length in E. cbn [per_iteration fst]. rewrite in_seq, E. cbn [length]. lia.
  Qed.
End Iterations.
Print Assumptions c111_errors.
Print Assumptions c111_errors_ends.
Print Assumptions c111_displacements.
Print Assumptions c111_displacements_defined.
Print Assumptions c111_costs.
Print Assumptions c111_last_iteration_partial.
Print Assumptions c111_last_iteration_refuted.

(** plot_cumulative_error_distribution of a list of lists of errors, one per method, none of them empty. *)
Theorem c111_ced : forall methods lo hi step limits, methods <> [] -> Forall (fun l => l <> []) methods ->
  (0 < step)%Q -> (lo < hi)%Q ->
  exists fig, plot_cumulative_error_distribution (map MList methods) (Some (lo, hi, step)) None limits = Ok fig /\
    (** abscissae lo, lo + step, ... below hi, and no other *)
    (forall i, (lo + inject_Z (Z.of_nat i) * step < hi)%Q <-> i < length (f_x fig)) /\
    (forall i x, nth_error (f_x fig) i = Some x -> (x == lo + inject_Z (Z.of_nat i) * step)%Q) /\
    (** one named curve per method, which shows at each abscissa the fraction of errors up to it *)
    length (f_curves fig) = length methods /\ length (f_legend fig) = length methods /\
    (forall k errors, nth_error methods k = Some errors -> exists curve,
       nth_error (f_curves fig) k = Some curve /\ nth_error (f_legend fig) k = Some (numbered_key "Curve " k) /\
       length curve = length (f_x fig) /\
       forall x y, shows (f_x fig) curve x y -> fraction (fun e => e <= x)%Q errors y) /\
    (** shown up to the last abscissa unless other limits are given *)
    (limits = None -> fst (f_limits fig) = 0%Q /\ last_res (f_x fig) = Ok (snd (f_limits fig))) /\
    (forall l, limits = Some l -> f_limits fig = l).
Proof.
  intros methods lo hi step limits Hne Hall Hs Hlt. unfold plot_cumulative_error_distribution.
  destruct methods as [|m0 ms]; [congruence|]. cbn [map nth_res nth_error bind].
  destruct (Proofs.Stats.arange_ok lo hi step Hs Hlt) as (n & -> & H1 & H2). cbn [bind].
  set (xs := Proofs.Stats.grid lo step (S n)). change (MList m0 :: map MList ms) with (map MList (m0 :: ms)).
  assert (Lx : length xs = S n) by (unfold xs, Proofs.Stats.grid; rewrite map_length, seq_length; reflexivity).
  set (methods := m0 :: ms) in *.
  assert (Hc : mapM (ced_of xs) (map MList methods) = Ok (map (fun l => map (Proofs.Stats.ced_at l) xs) methods)).
  { clear -Hall. induction Hall as [|l ls Hl _ IH]; [reflexivity|]. cbn [map mapM]. unfold ced_of at 1.
    rewrite Proofs.Stats.cumulative_ok; [|exact Hl|].
    - cbn [bind]. rewrite IH. cbn [bind]. rewrite map_map. reflexivity.
    - apply Forall_forall. intros b Hb. apply in_map_iff in Hb. destruct Hb as (x & <- & _). exact I. }
  rewrite Hc. cbn [bind].
  rewrite !map_length, seq_length, Nat.eqb_refl. cbn [negb].
  assert (Hl : exists x, last_res xs = Ok x).
  { clear -Lx. destruct xs as [|x l] using rev_ind; [discriminate|]. exists x. unfold last_res. rewrite rev_app_distr. reflexivity. }
  assert (Hx : forall i x, nth_error xs i = Some x -> (x == lo + inject_Z (Z.of_nat i) * step)%Q).
  { intros i x. unfold xs, Proofs.Stats.grid. rewrite nth_error_map. destruct (nth_error (seq 0 (S n)) i) eqn:E; [|discriminate].
    intros [= <-]. apply seq_nth_inv in E. destruct E as (-> & _). reflexivity. }
  assert (Hb : forall i, (lo + inject_Z (Z.of_nat i) * step < hi)%Q <-> i < length xs).
  { intros i. rewrite Lx. split; intros H.
    - destruct (Nat.lt_ge_cases i (S n)) as [|K]; [assumption|]. exfalso.
      assert (inject_Z (Z.of_nat n) + 1 <= inject_Z (Z.of_nat i))%Q.
      { change 1%Q with (inject_Z 1). rewrite <- inject_Z_plus, <- Zle_Qle. lia. }
      nra.
    - assert (inject_Z (Z.of_nat i) <= inject_Z (Z.of_nat n))%Q by (rewrite <- Zle_Qle; lia). nra. }
  assert (Hk : forall k errors, nth_error methods k = Some errors -> exists curve,
       nth_error (map (fun l => map (Proofs.Stats.ced_at l) xs) methods) k = Some curve /\
       nth_error (map (numbered_key "Curve ") (seq 0 (length methods))) k = Some (numbered_key "Curve " k) /\
       length curve = length xs /\
       forall x y, shows xs curve x y -> fraction (fun e => e <= x)%Q errors y).
  { intros k l E. exists (map (Proofs.Stats.ced_at l) xs). rewrite !nth_error_map, E. split; [reflexivity|]. split.
    - assert (L : k < length methods) by (apply nth_error_Some; congruence).
      rewrite (nth_error_nth' _ 0) by (rewrite seq_length; exact L). rewrite seq_nth by exact L. reflexivity.
    - split; [apply map_length|]. intros x y (i & X1 & X2). rewrite nth_error_map, X1 in X2. injection X2 as <-.
      apply Proofs.Stats.ced_fraction. rewrite Forall_forall in Hall. apply Hall. exact (nth_error_In _ _ E). }
  assert (Hlc : length (map (fun l => map (Proofs.Stats.ced_at l) xs) methods) = length methods) by apply map_length.
  assert (Hll : length (map (numbered_key "Curve ") (seq 0 (length methods))) = length methods) by (rewrite map_length; apply seq_length).
  destruct Hl as (x & Hl).
  destruct limits as [l|]; [|rewrite Hl]; cbn [bind]; eexists; (split; [reflexivity|]); cbn [f_x f_curves f_legend f_limits];
    (split; [exact Hb|]); (split; [exact Hx|]); (split; [exact Hlc|]); (split; [exact Hll|]); (split; [exact Hk|]).
  - split; [discriminate|]. intros l' [= <-]. reflexivity.
  - split; [|discriminate]. intros _. split; [reflexivity|exact Hl].
Qed.
Print Assumptions c111_ced.

Lemma ced_of_all_entries xs errors es : entries errors = Ok es ->
  ced_of_all xs errors = Ok (map (fun x => inject_Z (Z.of_nat (Proofs.Stats.nle es x)) / inject_Z (Z.of_nat (length errors)))%Q xs).
Proof.
  intros He. unfold ced_of_all. rewrite He. cbn [bind]. induction xs as [|x xs IH]; [reflexivity|]. cbn [mapM map].
  rewrite (Proofs.Stats.less_equal_ok (EList es) (BNp x) I) at 1. cbn [bind]. rewrite IH. reflexivity.
Qed.
(** A list of numbers is drawn as a single curve: that of the list of this list. *)
Theorem c111_ced_single : forall errors range legend limits, errors <> [] ->
  plot_cumulative_error_distribution (map MNum errors) range legend limits =
  plot_cumulative_error_distribution [MList errors] range legend limits.
Proof.
  intros errors range legend limits Hne. unfold plot_cumulative_error_distribution.
  destruct errors as [|e es]; [congruence|]. cbn [map nth_res nth_error bind].
  destruct (match range with Some r => r | None => _ end) as [[lo hi] step]. destruct (arange lo hi step) as [xs|]; [|reflexivity].
  cbn [bind]. change (MNum e :: map MNum es) with (map MNum (e :: es)). set (l := e :: es) in *.
  assert (He : entries (map MNum l) = Ok l).
  { unfold l. cbn [map entries]. change (MNum e :: map MNum es) with (map MNum (e :: es)). generalize (e :: es) as l'.
    unfold numbers_of. induction l' as [|a l' IH]; [reflexivity|]. cbn [map mapM bind]. rewrite IH. reflexivity. }
  assert (Hc : ced_of_all xs (map MNum l) = ced_of xs (MList l)).
  { unfold ced_of. rewrite Proofs.Stats.cumulative_ok; [|exact Hne|].
    - rewrite (ced_of_all_entries _ _ _ He), map_length, map_map. reflexivity.
    - apply Forall_forall. intros b Hb. apply in_map_iff in Hb. destruct Hb as (x & <- & _). exact I. }
  rewrite Hc. cbn [mapM]. destruct (ced_of xs (MList l)); reflexivity.
Qed.
Print Assumptions c111_ced_single.

(** The legend must name every curve. *)
Theorem c111_ced_legend : forall methods lo hi step legend limits, methods <> [] -> Forall (fun l => l <> []) methods ->
  (0 < step)%Q -> (lo < hi)%Q ->
  ((exists fig, plot_cumulative_error_distribution (map MList methods) (Some (lo, hi, step)) (Some legend) limits = Ok fig /\
     f_legend fig = legend) <-> length legend = length methods).
Proof.
  intros methods lo hi step legend limits Hne Hall Hs Hlt.
  destruct (c111_ced methods lo hi step limits Hne Hall Hs Hlt) as (fig & Hf & _ & _ & Lc & _).
  revert Hf Lc. unfold plot_cumulative_error_distribution. destruct (nth_res (map MList methods) 0) as [m|]; [|discriminate].
  cbn [bind]. destruct (arange lo hi step) as [xs|]; [|discriminate]. cbn [bind].
  match goal with |- context [bind ?x _] => destruct x as [cs|]; [|discriminate] end. cbn [bind].
  rewrite map_length, seq_length, Nat.eqb_refl. cbn [negb].
  match goal with |- context [bind ?x _] => destruct x as [lim|]; [|discriminate] end. cbn [bind].
  intros [= <-] Lc. cbn [f_curves] in Lc. rewrite Lc. split.
  - destruct (length legend =? length methods) eqn:E; [apply Nat.eqb_eq in E; auto|]. cbn [negb]. intros (f & K & _). discriminate.
  - intros ->. rewrite Nat.eqb_refl. cbn [negb]. eexists. split; reflexivity.
Qed.
Print Assumptions c111_ced_legend.

(** Finding: the documented range includes its maximum ("the minimum and maximum errors"), but the maximum is never an
    abscissa: errors between the last abscissa and the maximum are not drawn.  Nor does the figure extend to it, although
    "(0., error_range[1])" are the documented default limits. *)
Theorem c111_ced_max_refuted : forall methods lo hi step legend limits fig, (0 < step)%Q -> (lo < hi)%Q ->
  plot_cumulative_error_distribution methods (Some (lo, hi, step)) legend limits = Ok fig ->
  (forall x, In x (f_x fig) -> (x < hi)%Q) /\ (limits = None -> (snd (f_limits fig) < hi)%Q).
Proof.
  intros methods lo hi step legend limits fig Hs Hlt. unfold plot_cumulative_error_distribution.
  destruct (nth_res methods 0) as [m|]; [|discriminate]. cbn [bind].
  destruct (Proofs.Stats.arange_ok lo hi step Hs Hlt) as (n & -> & H1 & H2). cbn [bind].
  match goal with |- context [bind ?x _] => destruct x as [cs|]; [|discriminate] end. cbn [bind].
  destruct (negb _); [discriminate|].
  assert (K : forall x, In x (Proofs.Stats.grid lo step (S n)) -> (x < hi)%Q).
  { intros x Hx. apply in_map_iff in Hx. destruct Hx as (i & <- & Hi). apply in_seq in Hi.
    assert (inject_Z (Z.of_nat i) <= inject_Z (Z.of_nat n))%Q by (rewrite <- Zle_Qle; lia). nra. }
  destruct limits as [lim|]; cbn [bind]; [intros [= <-]; split; [exact K|discriminate]|].
  destruct (last_res _) as [x|] eqn:El; [|discriminate]. cbn [bind]. intros [= <-]. cbn [f_x f_limits snd]. split; [exact K|].
  intros _. apply K. unfold last_res in El. destruct (rev _) as [|y l] eqn:Er; [discriminate|]. injection El as ->.
  apply in_rev. rewrite Er. left. reflexivity.
Qed.
Print Assumptions c111_ced_max_refuted.

(** Finding: the errors of n methods given as n arrays (or tuples) of the same number m of errors are drawn as one curve
    instead of n, and its height is m instead of 1 where all errors are below the abscissa. *)
Theorem c111_ced_arrays_refuted : forall methods m lo hi step limits, methods <> [] -> Forall (fun l => length l = m) methods ->
  (0 < step)%Q -> (lo < hi)%Q ->
  exists fig curve, plot_cumulative_error_distribution (map MArray methods) (Some (lo, hi, step)) None limits = Ok fig /\
    f_curves fig = [curve] /\
    forall x y, shows (f_x fig) curve x y -> (forall l e, In l methods -> In e l -> e <= x)%Q -> (y == inject_Z (Z.of_nat m))%Q.
Proof.
  intros methods m lo hi step limits Hne Hm Hs Hlt. unfold plot_cumulative_error_distribution.
  destruct methods as [|m0 ms]; [congruence|]. cbn [map nth_res nth_error bind].
  destruct (Proofs.Stats.arange_ok lo hi step Hs Hlt) as (n & -> & H1 & H2). cbn [bind].
  set (xs := Proofs.Stats.grid lo step (S n)). change (MArray m0 :: map MArray ms) with (map MArray (m0 :: ms)).
  assert (Lx : length xs = S n) by (unfold xs, Proofs.Stats.grid; rewrite map_length, seq_length; reflexivity).
  assert (L0 : length m0 = m) by (inversion Hm; assumption).
  set (methods := m0 :: ms) in *.
  assert (He : entries (map MArray methods) = Ok (concat methods)).
  { unfold methods. cbn [map entries]. rewrite L0. change (MArray m0 :: map MArray ms) with (map MArray methods).
    change (m0 :: ms) with methods. clear -Hm.
    assert (E : mapM (fun e => match e with MNum _ => Err ValueError | MList l' | MArray l' => if length l' =? m then Ok l' else Err ValueError end)
      (map MArray methods) = Ok methods).
    { induction Hm as [|l ls Hl _ IH]; [reflexivity|]. cbn [map mapM]. rewrite Hl, Nat.eqb_refl. cbn [bind]. rewrite IH. reflexivity. }
    rewrite E. reflexivity. }
  assert (Hpos : length methods <> 0) by discriminate. clearbody methods.
  assert (Hc : ced_of_all xs (map MArray methods) =
    Ok (map (fun x => inject_Z (Z.of_nat (Proofs.Stats.nle (concat methods) x)) / inject_Z (Z.of_nat (length methods)))%Q xs)).
  { rewrite (ced_of_all_entries _ _ _ He), map_length. reflexivity. }
  rewrite Hc. cbn [bind length map seq Nat.eqb negb].
  assert (Hl : exists x, last_res xs = Ok x).
  { clear -Lx. destruct xs as [|x l] using rev_ind; [discriminate|]. exists x. unfold last_res. rewrite rev_app_distr. reflexivity. }
  destruct Hl as (xl & Hl).
  assert (K : forall x y, shows xs (map (fun x => inject_Z (Z.of_nat (Proofs.Stats.nle (concat methods) x)) / inject_Z (Z.of_nat (length methods)))%Q xs) x y ->
    (forall l e, In l methods -> In e l -> e <= x)%Q -> (y == inject_Z (Z.of_nat m))%Q).
  { intros x y (i & X1 & X2) Hall. rewrite nth_error_map, X1 in X2. injection X2 as <-.
    rewrite Proofs.Stats.nle_all by (intros e Hi; apply (in_concat methods) in Hi; destruct Hi as (l & A & B); exact (Hall l e A B)).
    assert (Ec : length (concat methods) = length methods * m).
    { clear -Hm. induction Hm as [|l ls Hl _ IH]; [reflexivity|]. cbn [concat length]. rewrite app_length, IH, Hl. lia. }
    rewrite Ec, Nat2Z.inj_mul, inject_Z_mult. field. intros Z0. change (inject_Z (Z.of_nat (length methods)) == inject_Z 0)%Q in Z0. rewrite inject_Z_injective in Z0. lia. }
  destruct limits as [l|]; [|rewrite Hl]; cbn [bind]; eexists _, _; (split; [reflexivity|]); (split; [reflexivity|exact K]).
Qed.
Print Assumptions c111_ced_arrays_refuted.

(** The default range draws the abscissae 0, 0.005, ..., 0.1. *)
Theorem c111_ced_default : forall methods legend limits fig,
  plot_cumulative_error_distribution methods None legend limits = Ok fig ->
  length (f_x fig) = 21 /\ forall i x, nth_error (f_x fig) i = Some x -> (x == inject_Z (Z.of_nat i) / 200)%Q.
Proof.
  intros methods legend limits fig. unfold plot_cumulative_error_distribution.
  destruct (nth_res methods 0) as [m|]; [|discriminate]. cbn [bind].
  assert (E : arange 0 (101 # 1000) (5 # 1000) = Ok (map (fun i => 0 + inject_Z (Z.of_nat i) * (5 # 1000)) (seq 0 21))%Q) by reflexivity.
  rewrite E. cbn [bind]. set (xs := map _ (seq 0 21)).
  match goal with |- context [bind ?x _] => destruct x as [cs|]; [|discriminate] end. cbn [bind].
  destruct (negb _); [discriminate|].
  match goal with |- context [bind ?x _] => destruct x as [lim|]; [|discriminate] end. cbn [bind].
  intros [= <-]. cbn [f_x]. split; [reflexivity|]. intros i x. unfold xs. rewrite nth_error_map.
  destruct (nth_error (seq 0 21) i) eqn:En; [|discriminate]. intros [= <-]. apply seq_nth_inv in En. destruct En as (-> & _).
  cbn [Nat.add]. field.
Qed.
Print Assumptions c111_ced_default.

(** ** Examples *)
(** Two scales, two and one iterations: six shapes, abscissae 0 to 5, n_iters 3. *)
Example c111_scales_ex : exists m fig,
  multi_parametric (map (of_run None) [Props.Result.run_a; Props.Result.run_b]) 2 [fun x => x; fun x => x] [Z.mul 2; fun x => x] (Some 30%Z) = Ok m /\
  r_initial (m_res m) <> None /\ r_n_iters (m_res m) = 3%Z /\ consistent (m_res m) /\
  plot_errors (fun s gt => Ok (gt - s)%Z) (m_res m) = Ok fig /\ fig = ([0; 1; 2; 3; 4; 5], [10; 8; 6; 4; 3; 2]%Z) /\
  (exists f, plot_displacements (fun s s' : Z => [IZR (s' - s)]) "mean" (m_res m) = Ok f /\ fst f = [0; 1; 2; 3; 4]) /\
  plot_costs (m_res m) = Err ValueError.
Proof.
  eexists _, _. split; [reflexivity|]. cbn [m_res r_initial r_n_iters]. split; [discriminate|]. split; [reflexivity|]. split.
  - split; [reflexivity|intros i K; injection K as <-; reflexivity].
  - split; [reflexivity|]. split; [reflexivity|]. split; [|reflexivity]. eexists. split; reflexivity.
Qed.
Example c111_nonparametric_ex : exists r fig,
  @nonparametric_result Z Z Z Z [3; 5]%Z (Some 1%Z) (Some 7%Z) (Some [9; 4; 1]%Z) = Ok r /\
  plot_errors (fun s gt => Ok (gt - s)%Z) r = Ok fig /\ fig = ([0; 1; 2], [6; 4; 2]%Z) /\ r_n_iters r = 2%Z /\
  plot_costs r = Ok ([0; 1; 2], [9; 4; 1]%Z).
Proof. eexists _, _. split; [reflexivity|]. repeat split. Qed.
(** Two methods with three errors each: lists give two curves that reach 1, arrays one curve that reaches 3; the error 3/10
    is not drawn although the range ends there. *)
Example c111_ced_ex : exists fig fig',
  plot_cumulative_error_distribution [MList [0; 1 # 10; 3 # 10]; MList [1 # 10; 2 # 10; 2 # 10]]%Q (Some (0, 3 # 10, 1 # 10)%Q) None None = Ok fig /\
  map (map Qred) (f_curves fig) = [[1 # 3; 2 # 3; 2 # 3]; [0; 1 # 3; 1]]%Q /\
  f_legend fig = ["Curve 0"; "Curve 1"]%string /\
  plot_cumulative_error_distribution [MArray [0; 1 # 10; 3 # 10]; MArray [1 # 10; 2 # 10; 2 # 10]]%Q (Some (0, 5 # 10, 1 # 10)%Q) None None = Ok fig' /\
  map (map Qred) (f_curves fig') = [[1 # 2; 3 # 2; 5 # 2; 3; 3]]%Q.
Proof. eexists _, _. split; [reflexivity|]. split; [reflexivity|]. split; [reflexivity|]. split; reflexivity. Qed.
