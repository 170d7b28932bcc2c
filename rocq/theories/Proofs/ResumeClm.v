From Verif.Model Require Import Py Einsum LinAlg ModelInstance Jacobian Updates ClmFitter.
From Verif.Spec Require Import ModelInstance Resume.
From Verif.Proofs Require Import ModelInstance MRing Projection.
From Verif.Proofs Require ClmFitter.
From mathcomp Require Import all_ssreflect all_algebra.
Set Implicit Arguments.
Unset Strict Implicit.
Unset Printing Implicit Defensive.
Import Order.TTheory GRing.Theory Num.Theory.
Local Open Scope ring_scope.

Section Clm.
Variable F : realFieldType.
Variables (N : nat) (Image : Type).
Notation shape := 'M[F]_(N, 2).
Notation opdm := (opdm F N).
Notation static := (@Verif.Proofs.ClmFitter.static F N).
Variable align : shape -> shape -> sim F.
Variable displacement : nat -> Image -> shape -> res 'cV[F]_(N * 2).
Variable exceeds : shape -> shape -> bool.
Notation run := (alg_run align displacement exceeds).
Notation loop := (alg_loop align displacement exceeds).
Notation step := (alg_step align displacement).

Definition valid (d : opdm) : Prop :=
  opdm_synced d /\ opdm_global align (src d) d /\ size (o_weights d) = size (active (o_model d)) /\ size (o_simweights d) = size (o_simcomps d).
Lemma set_valid t (d d' : opdm) : opdm_set_target align (src d) t d = (d', Ok tt) -> valid d'.
Proof. move=> /opdm_sync_ok [S [G [W [Q [M C]]]]]. rewrite /= in M. split=> //. split; first by rewrite /src M. by []. Qed.
Lemma vec_valid v (d d' : opdm) : valid d -> size v = size (opdm_vector d) -> opdm_from_vector align (src d) v d = (d', Ok tt) -> valid d'.
Proof.
  move=> [_ [_ [W Q]]] Sv H. have [S [G [V [M C]]]] := opdm_from_ok H. rewrite /valid /src M C. split=> //. split=> //.
  have Qd : o_simweights d' = take (size (o_simweights d)) v.
    move: H. rewrite /opdm_from_vector. case U : opdm_update_global => [d1 [[]|]] //.
    have [_ [Q1 _]] := opdm_update_ok U. move=> /opdm_regenerate_ok /= [_ [_ [-> _]]]. by rewrite Q1.
  have K : size (o_simweights d') = size (o_simweights d) by rewrite Qd size_takel // Sv /opdm_vector size_cat leq_addr.
  split; last by rewrite K.
  have := congr1 size V. rewrite Sv /opdm_vector !size_cat K => /addnI ->. exact: W.
Qed.
Lemma step_valid k img b a (d d' : opdm) u : valid d -> step k img b a d = (d', Ok u) -> valid d'.
Proof.
  move=> V. rewrite /alg_step. case: displacement => [e|] //. case: eqP => // S. rewrite /clm_update. case: clm_step => [dp|] //. case: u.
  apply: vec_valid => //. by rewrite size_map size_iota.
Qed.

Definition pre_result ss ps (r : opdm * res (result F N)) : opdm * res (result F N) :=
  match r with (d, Ok r) => (d, Ok (Result (ss ++ r_shapes r) (ps ++ r_params r))) | (d, Err e) => (d, Err e) end.
Lemma loop_pre m : forall go k img b a d ss ps ss0 ps0,
  loop m go k img b a d (ss0 ++ ss) (ps0 ++ ps) = pre_result ss0 ps0 (loop m go k img b a d ss ps).
Proof.
  elim: m => [|m IH] go k img b a d ss ps ss0 ps0 //=. case: go => //. case: step => [d' [u|]] //. by rewrite -!catA IH.
Qed.
Lemma loop_add m r : forall go k img b a d ss ps d1 r1 s0, loop m go k img b a d (rcons ss s0) ps = (d1, Ok r1) ->
  o_target d = s0 -> valid d ->
  size (r_params r1) = (size ps + m)%N -> (m = 0%N -> go) -> (forall pre x y, r_shapes r1 = pre ++ [:: x; y] -> (0 < m)%N -> exceeds x y) ->
  [/\ loop (m + r) go k img b a d (rcons ss s0) ps = loop r true k img b a d1 (r_shapes r1) (r_params r1), valid d1 & forall s, last s (r_shapes r1) = o_target d1].
Proof.
  elim: m => [|m IH] go k img b a d ss ps d1 r1 s0 /=.
    move=> [<- <-] T V _ G _. rewrite add0n G //. split=> // s. by rewrite /= last_rcons.
  case: go; last by move=> [_ <-] _ _ /eqP; rewrite /= -[X in X == _]addn0 eqn_add2l.
  case Sv : step => [d' [u|e]] //. rewrite !cats1 => L T V Sz _ Mv. have V' := step_valid V Sv.
  have G0 : m = 0%N -> exceeds (o_target d) (o_target d').
    move=> M0. move: L. rewrite M0 /= => [[_ Er]]. rewrite T. apply: (Mv ss) => //. by rewrite -Er /= -cats1 -cats1 -catA.
  have Sz' : size (r_params r1) = (size (rcons ps (opdm_vector d')) + m)%N by rewrite Sz size_rcons addnS.
  exact: (IH _ _ _ _ _ _ _ _ _ _ _ L erefl V' Sz' G0 (fun pre x y E _ => Mv pre x y E isT)).
Qed.
Lemma run_continues k img b a (d d1 : opdm) s m r r1 :
  orthonormal (o_simcomps d) -> orthonormal (active (o_model d)) ->
  (forall c c', c \in active (o_model d) -> c' \in o_simcomps d -> dot c c' = 0) ->
  similarity_basis (m_mean (o_model d)) (o_simcomps d) -> exact_alignment align (m_mean (o_model d)) ->
  run k img s m b a d = (d1, Ok r1) -> size (r_params r1) = m.+1 -> still_moving exceeds (r_shapes r1) -> sdet (o_sim d1) != 0 ->
  run k img s (m + r) b a d =
  match run k img (last s (r_shapes r1)) r b a d1 with
  | (d2, Ok r2) => (d2, Ok (Result (joined (r_shapes r1) (r_shapes r2)) (joined (r_params r1) (r_params r2))))
  | (d2, Err e) => (d2, Err e)
  end.
Proof.
  move=> Os Om X B E R Sz Mv D.
  have St := Proofs.ClmFitter.run_static align displacement exceeds k img s m b a d. rewrite R /= in St. case: St => Em Ec.
  move: R. rewrite /alg_run. case T : opdm_set_target => [d0 [[]|]] // L.
  have [|||||-> [S [G [W Q]]] Lt] := @loop_add m r true k img b a d0 [::] _ d1 r1 (o_target d0) L.
  - by [].
  - exact: set_valid T.
  - by rewrite /= add1n.
  - by [].
  - by move=> pre x y H _; apply: (Mv pre).
  rewrite Lt /src (@opdm_idempotent F N align d1) ?Em ?Ec //; try (by rewrite -Em); try (by rewrite -Ec).
  have := loop_pre r true k img b a d1 [::] [::] (r_shapes r1) (r_params r1). rewrite !cats0 => ->.
  have := loop_pre r true k img b a d1 [::] [::] [:: o_target d1] [:: opdm_vector d1]. rewrite !cats0 => ->.
  by case: loop => [d4 [r4|]].
Qed.
End Clm.
