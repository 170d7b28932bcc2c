(** C05 (termination and convergence of the optimisation loops), C06 (shapes, parameters and costs). *)
From Coq Require Import List ZArith Lia Bool.
From Verif.Model Require Import Py RunLoop.
From Verif.Spec Require Import RunLoop.
From Verif.Proofs Require RunLoop.
Import ListNotations.
Local Open Scope nat_scope.

Lemma pair2 {A B} {a a' : A} {b b' : B} : (a, b) = (a', b') -> a = a' /\ b = b'.
Proof. intros H. split; [apply (f_equal fst H)|apply (f_equal snd H)]. Qed.
Lemma pair3 {A B C} {a a' : A} {b b' : B} {c c' : C} : (a, b, c) = (a', b', c') -> a = a' /\ b = b' /\ c = c'.
Proof. intros H. destruct (pair2 H) as [H1 ->]. destruct (pair2 H1) as [-> ->]. auto. Qed.
Lemma pair4 {A B C D} {a a' : A} {b b' : B} {c c' : C} {d d' : D} :
  (a, b, c, d) = (a', b', c', d') -> a = a' /\ b = b' /\ c = c' /\ d = d'.
Proof. intros H. destruct (pair2 H) as [H1 ->]. destruct (pair3 H1) as (-> & -> & ->). auto. Qed.

(** ** C05.  A run returns exactly when there is a trajectory of successful updates that is stopped as
    documented (at most [max_iters] updates, fewer only on convergence, none after convergence), and its
    output is read off that trajectory; it raises exactly when the update rule raises on the way. *)
Theorem c05_lucas_kanade : forall St P Sh C E (step : St -> res (St * E)) exceeds
    (as_vector : St -> P) (target : St -> Sh) (cost : St -> C) max rc st0,
  (forall out, lk_run step exceeds as_vector target cost max rc st0 = Ok out <->
     exists l, Traj step st0 l /\ well_stopped exceeds (Z.to_nat max) (map snd l) /\
       out = (map as_vector (visited st0 l), map target (visited st0 l),
              if rc then Some (map cost (removelast (visited st0 l))) else None)) /\
  (forall x, lk_run step exceeds as_vector target cost max rc st0 = Err x <->
     raises step exceeds (Z.to_nat max) st0 x).
Proof.
  exact (fun St P Sh C E step exceeds av tg c max rc st0 =>
    conj (Proofs.RunLoop.lk_run_spec step exceeds av tg c max rc st0)
         (Proofs.RunLoop.lk_run_err step exceeds av tg c max rc st0)).
Qed.
Print Assumptions c05_lucas_kanade.

Theorem c05_gauss_newton : forall St P Sh C E (step : St -> res (St * E)) exceeds
    (as_vector : St -> P) (target : St -> Sh) (cost : St -> C) max rc st0,
  (forall out, gn_run step exceeds as_vector target cost max rc st0 = Ok out <->
     exists l, Traj step st0 l /\ well_stopped exceeds (Z.to_nat max) (map snd l) /\
       out = (map as_vector (visited st0 l), map target (visited st0 l),
              if rc then Some (map cost (visited st0 l)) else None)) /\
  (forall x, gn_run step exceeds as_vector target cost max rc st0 = Err x <->
     raises step exceeds (Z.to_nat max) st0 x).
Proof.
  exact (fun St P Sh C E step exceeds av tg c max rc st0 =>
    conj (Proofs.RunLoop.gn_run_spec step exceeds av tg c max rc st0)
         (Proofs.RunLoop.gn_run_err step exceeds av tg c max rc st0)).
Qed.
Print Assumptions c05_gauss_newton.

Theorem c05_gauss_newton_appearance : forall St P Sh A C E (step : St -> res (St * E)) exceeds
    (as_vector : St -> P) (target : St -> Sh) (app_of : St -> A) (cost : St -> C) max rc st0,
  (forall out, gn_app_run step exceeds as_vector target app_of cost max rc st0 = Ok out <->
     exists l, Traj step st0 l /\ well_stopped exceeds (Z.to_nat max) (map snd l) /\
       out = (map as_vector (visited st0 l), map app_of (visited st0 l), map target (visited st0 l),
              if rc then Some (map cost (visited st0 l)) else None)) /\
  (forall x, gn_app_run step exceeds as_vector target app_of cost max rc st0 = Err x <->
     raises step exceeds (Z.to_nat max) st0 x).
Proof.
  exact (fun St P Sh A C E step exceeds av tg ap c max rc st0 =>
    conj (Proofs.RunLoop.gn_app_run_spec step exceeds av tg ap c max rc st0)
         (Proofs.RunLoop.gn_app_run_err step exceeds av tg ap c max rc st0)).
Qed.
Print Assumptions c05_gauss_newton_appearance.

Theorem c05_pictorial_structures : forall St P Sh C E (step : St -> res (St * E)) exceeds
    (as_vector : St -> P) (target : St -> Sh) (ac dc : St -> C) add max rc st0,
  (forall out, aps_run step exceeds as_vector target ac dc add max rc st0 = Ok out <->
     exists l, Traj step st0 l /\ well_stopped exceeds (Z.to_nat max) (map snd l) /\
       out = (map as_vector (visited st0 l), map target (visited st0 l),
              if rc then Some (map ac (visited st0 l), map dc (visited st0 l),
                               map (fun s => add (ac s) (dc s)) (visited st0 l)) else None)) /\
  (forall x, aps_run step exceeds as_vector target ac dc add max rc st0 = Err x <->
     raises step exceeds (Z.to_nat max) st0 x).
Proof.
  exact (fun St P Sh C E step exceeds av tg ac dc add max rc st0 =>
    conj (Proofs.RunLoop.aps_run_spec step exceeds av tg ac dc add max rc st0)
         (Proofs.RunLoop.aps_run_err step exceeds av tg ac dc add max rc st0)).
Qed.
Print Assumptions c05_pictorial_structures.

Theorem c05_constrained_local_model : forall St P Sh E (step : St -> res (St * E)) exceeds
    (as_vector : St -> P) (target : St -> Sh) max rc st0,
  (forall out, snd (clm_run step exceeds as_vector target max rc st0) = Ok out <->
     exists l, Traj step st0 l /\ well_stopped exceeds (Z.to_nat max) (map snd l) /\
       out = (map as_vector (visited st0 l), map target (visited st0 l))) /\
  (forall x, snd (clm_run step exceeds as_vector target max rc st0) = Err x <->
     raises step exceeds (Z.to_nat max) st0 x).
Proof.
  exact (fun St P Sh E step exceeds av tg max rc st0 =>
    conj (Proofs.RunLoop.clm_run_spec step exceeds av tg max rc st0)
         (Proofs.RunLoop.clm_run_err step exceeds av tg max rc st0)).
Qed.
Print Assumptions c05_constrained_local_model.

(** Concrete runs: halving an integer, threshold 1.  The first converges after 3 updates (16, 8, 4, ...
    with steps 8, 4, 2, 1), the second is cut by [max_iters], the third raises. *)
Definition halve (s : Z) : res (Z * Z) := Ok (s / 2, Z.abs (s - s / 2))%Z.
Definition halve_until (s : Z) : res (Z * Z) := if (s <? 5)%Z then Err ValueError else halve s.
Example c05_ex :
  gn_run halve (fun e => 1 <? e)%Z (fun s => s) (fun s => 2 * s)%Z (fun s => s * s)%Z 20 true 8%Z
    = Ok ([8; 4; 2; 1], [16; 8; 4; 2], Some [64; 16; 4; 1])%Z /\
  gn_run halve (fun e => 1 <? e)%Z (fun s => s) (fun s => 2 * s)%Z (fun s => s * s)%Z 2 false 8%Z
    = Ok ([8; 4; 2], [16; 8; 4], None)%Z /\
  gn_run halve_until (fun e => 1 <? e)%Z (fun s => s) (fun s => 2 * s)%Z (fun s => s * s)%Z 20 false 8%Z
    = Err ValueError.
Proof. repeat split. Qed.

(** ** C06.  [gen] is the map from parameters to shapes of the transform (property C29). *)
Theorem c06_gauss_newton : forall St P Sh C E (step : St -> res (St * E)) exceeds
    (as_vector : St -> P) (target : St -> Sh) (cost : St -> C) (gen : P -> Sh) max rc st0 ps shs cs,
  (forall s, target s = gen (as_vector s)) ->
  gn_run step exceeds as_vector target cost max rc st0 = Ok (ps, shs, cs) ->
  length ps <= S (Z.to_nat max) /\ shs = map gen ps /\
  match cs with None => rc = false | Some c => rc = true /\ length c = length shs end.
Proof.
  intros * Hg H. apply Proofs.RunLoop.gn_run_spec in H. destruct H as (l & HT & (Hlen & _) & Heq). apply pair3 in Heq. destruct Heq as (-> & -> & ->).
  rewrite map_length in Hlen. split; [|split].
  - rewrite map_length. unfold visited. simpl. rewrite map_length. lia.
  - rewrite map_map. apply map_ext. exact Hg.
  - destruct rc; [|reflexivity]. split; auto. rewrite !map_length. reflexivity.
Qed.
Print Assumptions c06_gauss_newton.

Theorem c06_gauss_newton_appearance : forall St P Sh A C E (step : St -> res (St * E)) exceeds
    (as_vector : St -> P) (target : St -> Sh) (app_of : St -> A) (cost : St -> C) (gen : P -> Sh)
    max rc st0 ps aps shs cs,
  (forall s, target s = gen (as_vector s)) ->
  gn_app_run step exceeds as_vector target app_of cost max rc st0 = Ok (ps, aps, shs, cs) ->
  length ps <= S (Z.to_nat max) /\ shs = map gen ps /\ length aps = length shs /\
  match cs with None => rc = false | Some c => rc = true /\ length c = length shs end.
Proof.
  intros * Hg H. apply Proofs.RunLoop.gn_app_run_spec in H.
  destruct H as (l & HT & (Hlen & _) & Heq). apply pair4 in Heq. destruct Heq as (-> & -> & -> & ->).
  rewrite map_length in Hlen. split; [|split; [|split]].
  - rewrite map_length. unfold visited. simpl. rewrite map_length. lia.
  - rewrite map_map. apply map_ext. exact Hg.
  - rewrite !map_length. reflexivity.
  - destruct rc; [|reflexivity]. split; auto. rewrite !map_length. reflexivity.
Qed.
Print Assumptions c06_gauss_newton_appearance.

(** Active pictorial structures: the total costs are the sums of the two partial ones. *)
Theorem c06_pictorial_structures : forall St P Sh C E (step : St -> res (St * E)) exceeds
    (as_vector : St -> P) (target : St -> Sh) (ac dc : St -> C) add (gen : P -> Sh) max rc st0 ps shs cs,
  (forall s, target s = gen (as_vector s)) ->
  aps_run step exceeds as_vector target ac dc add max rc st0 = Ok (ps, shs, cs) ->
  length ps <= S (Z.to_nat max) /\ shs = map gen ps /\
  match cs with
  | None => rc = false
  | Some (a, d, t) => rc = true /\ length a = length shs /\ length d = length shs /\
      t = map (fun p => add (fst p) (snd p)) (combine a d)
  end.
Proof.
  intros * Hg H. apply Proofs.RunLoop.aps_run_spec in H. destruct H as (l & HT & (Hlen & _) & Heq). apply pair3 in Heq. destruct Heq as (-> & -> & ->).
  rewrite map_length in Hlen. split; [|split].
  - rewrite map_length. unfold visited. simpl. rewrite map_length. lia.
  - rewrite map_map. apply map_ext. exact Hg.
  - destruct rc; [|reflexivity]. split; auto. rewrite !map_length. repeat split.
    induction (visited st0 l); simpl; congruence.
Qed.
Print Assumptions c06_pictorial_structures.

(** CLM: no costs, whatever is asked, but asking emits the warning. *)
Theorem c06_constrained_local_model : forall St P Sh E (step : St -> res (St * E)) exceeds
    (as_vector : St -> P) (target : St -> Sh) (gen : P -> Sh) max rc st0 warned ps shs,
  (forall s, target s = gen (as_vector s)) ->
  clm_run step exceeds as_vector target max rc st0 = (warned, Ok (ps, shs)) ->
  length ps <= S (Z.to_nat max) /\ shs = map gen ps /\ warned = rc.
Proof.
  intros * Hg H. assert (H' := f_equal snd H). apply Proofs.RunLoop.clm_run_spec in H'.
  destruct H' as (l & HT & (Hlen & _) & Heq). apply pair2 in Heq. destruct Heq as (-> & ->).
  rewrite map_length in Hlen. split; [|split].
  - rewrite map_length. unfold visited. simpl. rewrite map_length. lia.
  - rewrite map_map. apply map_ext. exact Hg.
  - apply (f_equal fst) in H. simpl in H. congruence.
Qed.
Print Assumptions c06_constrained_local_model.

(** Lucas-Kanade: shapes and parameters line up; the costs are one short: the i-th cost belongs to the
    i-th shape, the final shape has none. *)
Theorem c06_lucas_kanade_partial : forall St P Sh C E (step : St -> res (St * E)) exceeds
    (as_vector : St -> P) (target : St -> Sh) (cost : St -> C) (gen : P -> Sh) max rc st0 ps shs cs,
  (forall s, target s = gen (as_vector s)) ->
  lk_run step exceeds as_vector target cost max rc st0 = Ok (ps, shs, cs) ->
  length ps <= S (Z.to_nat max) /\ shs = map gen ps /\
  match cs with None => rc = false | Some c => rc = true /\ S (length c) = length shs end.
Proof.
  intros * Hg H. apply Proofs.RunLoop.lk_run_spec in H. destruct H as (l & HT & (Hlen & _) & Heq). apply pair3 in Heq. destruct Heq as (-> & -> & ->).
  rewrite map_length in Hlen. split; [|split].
  - rewrite map_length. unfold visited. simpl. rewrite map_length. lia.
  - rewrite map_map. apply map_ext. exact Hg.
  - destruct rc; [|reflexivity]. split; auto. rewrite !map_length. unfold visited.
    generalize (map fst l) as m. intros m. clear. revert st0. induction m as [|b m IH]; intros a; [reflexivity|].
    change (removelast (a :: b :: m)) with (a :: removelast (b :: m)). cbn [length]. rewrite IH. reflexivity.
Qed.
Print Assumptions c06_lucas_kanade_partial.

Theorem c06_lucas_kanade_costs_refuted : exists ps shs c,
  lk_run halve (fun e => 1 <? e)%Z (fun s => s) (fun s => 2 * s)%Z (fun s => s * s)%Z 20 true 8%Z
    = Ok (ps, shs, Some c) /\ length c <> length shs.
Proof.
  exact (ex_intro _ [8; 4; 2; 1]%Z (ex_intro _ [16; 8; 4; 2]%Z (ex_intro _ [64; 16; 4]%Z
    (conj eq_refl (n_Sn 3))))).
Qed.
Print Assumptions c06_lucas_kanade_costs_refuted.
