(** C85: a smaller iteration budget or a looser tolerance cuts the same run short, and asking for costs changes nothing. *)
From Coq Require Import List ZArith Lia Bool.
From Verif.Model Require Import Py RunLoop.
From Verif.Spec Require Import RunLoop Budget.
From Verif.Proofs Require RunLoop Budget.
Import ListNotations.
Local Open Scope nat_scope.

(** [exceeds] is the test of the short run, [exceeds'] that of the long one; [rc] and [rc'] whether costs are returned. *)
Section Loops.
  Context {St P Sh A C E : Type}.
  Variable step : St -> res (St * E).
  Variables exceeds exceeds' : E -> bool.
  Variable as_vector : St -> P.
  Variable target : St -> Sh.
  Variable app_of : St -> A.
  Variables cost app_cost def_cost : St -> C.
  Variable add : C -> C -> C.
  Variables (max max' : Z) (rc rc' : bool) (st0 : St).
  Hypothesis budget : (max <= max')%Z.
  Hypothesis looser : forall e, exceeds e = true -> exceeds' e = true.
  Let nats : Z.to_nat max <= Z.to_nat max'. Proof. lia. Qed.

  Theorem c85_lucas_kanade :
    cut_short (fun a b => let '(ps, ss, cs) := a in let '(ps', ss', cs') := b in prefix ps ps' /\ prefix ss ss' /\ prefix_costs cs cs')
      (lk_run step exceeds as_vector target cost max rc st0) (lk_run step exceeds' as_vector target cost max' rc' st0).
  Proof.
    eapply Proofs.Budget.run_cut; [exact looser|exact nats|apply Proofs.RunLoop.lk_run_spec|apply Proofs.RunLoop.lk_run_err
      |apply Proofs.RunLoop.lk_run_spec|apply Proofs.RunLoop.lk_run_err|].
    intros l l' H. assert (V := Proofs.Budget.prefix_visited st0 l l' H).
    split; [now apply Proofs.Budget.prefix_map|split; [now apply Proofs.Budget.prefix_map|]].
    destruct rc, rc'; cbn -[removelast]; trivial. apply Proofs.Budget.prefix_map. unfold visited.
    apply Proofs.Budget.prefix_removelast. now apply Proofs.Budget.prefix_map.
  Qed.
  Theorem c85_gauss_newton :
    cut_short (fun a b => let '(ps, ss, cs) := a in let '(ps', ss', cs') := b in prefix ps ps' /\ prefix ss ss' /\ prefix_costs cs cs')
      (gn_run step exceeds as_vector target cost max rc st0) (gn_run step exceeds' as_vector target cost max' rc' st0).
  Proof.
    eapply Proofs.Budget.run_cut; [exact looser|exact nats|apply Proofs.RunLoop.gn_run_spec|apply Proofs.RunLoop.gn_run_err
      |apply Proofs.RunLoop.gn_run_spec|apply Proofs.RunLoop.gn_run_err|].
    intros l l' H. assert (V := Proofs.Budget.prefix_visited st0 l l' H).
    split; [now apply Proofs.Budget.prefix_map|split; [now apply Proofs.Budget.prefix_map|]].
    destruct rc, rc'; cbn; trivial. now apply (Proofs.Budget.prefix_map cost) in V.
  Qed.
  Theorem c85_gauss_newton_appearance :
    cut_short (fun a b => let '(ps, aps, ss, cs) := a in let '(ps', aps', ss', cs') := b in
        prefix ps ps' /\ prefix aps aps' /\ prefix ss ss' /\ prefix_costs cs cs')
      (gn_app_run step exceeds as_vector target app_of cost max rc st0) (gn_app_run step exceeds' as_vector target app_of cost max' rc' st0).
  Proof.
    eapply Proofs.Budget.run_cut; [exact looser|exact nats|apply Proofs.RunLoop.gn_app_run_spec|apply Proofs.RunLoop.gn_app_run_err
      |apply Proofs.RunLoop.gn_app_run_spec|apply Proofs.RunLoop.gn_app_run_err|].
    intros l l' H. assert (V := Proofs.Budget.prefix_visited st0 l l' H).
    split; [now apply Proofs.Budget.prefix_map|split; [now apply Proofs.Budget.prefix_map|split; [now apply Proofs.Budget.prefix_map|]]].
    destruct rc, rc'; cbn; trivial. now apply (Proofs.Budget.prefix_map cost) in V.
  Qed.
  Theorem c85_pictorial_structures :
    cut_short (fun a b => let '(ps, ss, cs) := a in let '(ps', ss', cs') := b in prefix ps ps' /\ prefix ss ss' /\
        match cs, cs' with Some (x, y, z), Some (x', y', z') => prefix x x' /\ prefix y y' /\ prefix z z' | _, _ => True end)
      (aps_run step exceeds as_vector target app_cost def_cost add max rc st0)
      (aps_run step exceeds' as_vector target app_cost def_cost add max' rc' st0).
  Proof.
    eapply Proofs.Budget.run_cut; [exact looser|exact nats|apply Proofs.RunLoop.aps_run_spec|apply Proofs.RunLoop.aps_run_err
      |apply Proofs.RunLoop.aps_run_spec|apply Proofs.RunLoop.aps_run_err|].
    intros l l' H. assert (V := Proofs.Budget.prefix_visited st0 l l' H).
    split; [now apply Proofs.Budget.prefix_map|split; [now apply Proofs.Budget.prefix_map|]].
    destruct rc, rc'; trivial. split; [|split]; now apply Proofs.Budget.prefix_map.
  Qed.
  Theorem c85_constrained_local_model :
    cut_short (fun a b => let '(ps, ss) := a in let '(ps', ss') := b in prefix ps ps' /\ prefix ss ss')
      (snd (clm_run step exceeds as_vector target max rc st0)) (snd (clm_run step exceeds' as_vector target max' rc' st0)).
  Proof.
    eapply Proofs.Budget.run_cut; [exact looser|exact nats|apply Proofs.RunLoop.clm_run_spec|apply Proofs.RunLoop.clm_run_err
      |apply Proofs.RunLoop.clm_run_spec|apply Proofs.RunLoop.clm_run_err|].
    intros l l' H. assert (V := Proofs.Budget.prefix_visited st0 l l' H). split; now apply Proofs.Budget.prefix_map.
  Qed.
End Loops.
Print Assumptions c85_lucas_kanade.
Print Assumptions c85_gauss_newton.
Print Assumptions c85_gauss_newton_appearance.
Print Assumptions c85_pictorial_structures.
Print Assumptions c85_constrained_local_model.

From Coq Require Import String QArith Qcanon.
From Verif.Model Require Import Dict Affine Result Checks Fitter.
From Verif.Spec Require Checks.
Local Open Scope nat_scope.
(** All scales: with a larger budget for the last scale the earlier scales report the same and the last one is continued, for
    algorithms that behave as above on one scale. *)
Theorem c85_last_scale : forall Px P A C
    (algorithm : nat -> image Px -> shape -> option shape -> Z -> bool -> res (iresult shape P A C)) (R : iresult shape P A C -> iresult shape P A C -> Prop),
  (forall i im sh gt k k' rc, (k <= k')%Z -> cut_short R (algorithm i im sh gt k rc) (algorithm i im sh gt k' rc)) ->
  forall F images s affs scs gts ks k k' v v' rc, (k <= k')%Z -> S (List.length ks) = List.length (scales F) ->
  Spec.Checks.seq_of v (map PInt (ks ++ [k])) -> Spec.Checks.seq_of v' (map PInt (ks ++ [k'])) ->
  cut_short (fun rs rs' => rs = rs' \/ exists pre r r', rs = pre ++ [r] /\ rs' = pre ++ [r'] /\ R r r')
    (fit algorithm F images s affs scs gts v rc) (fit algorithm F images s affs scs gts v' rc).
Proof. intros * H *. exact (Proofs.Budget.fit_cut algorithm R H F images s affs scs gts ks k k' v v' rc). Qed.
Print Assumptions c85_last_scale.

(** Halving an integer: 3 updates against 20 with a tighter tolerance; the long run goes on. *)
Definition halve (s : Z) : res (Z * Z) := Ok (s / 2, Z.abs (s - s / 2))%Z.
Example c85_ex : exists ps ss cs ps' ss',
  gn_run halve (fun e => 1 <? e)%Z (fun s => s) (fun s => 2 * s)%Z (fun s => s * s)%Z 3 true 64%Z = Ok (ps, ss, cs) /\
  gn_run halve (fun e => 0 <? e)%Z (fun s => s) (fun s => 2 * s)%Z (fun s => s * s)%Z 20 false 64%Z = Ok (ps', ss', None) /\
  ps' = ps ++ [4; 2; 1; 0; 0]%Z /\ ss = [128; 64; 32; 16]%Z.
Proof.
  eexists _, _, _, _, _. split; [reflexivity|]. split; [reflexivity|]. split; reflexivity.
Qed.
