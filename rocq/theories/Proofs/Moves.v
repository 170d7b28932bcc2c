From Verif.Model Require Import Py Einsum LinAlg ModelInstance Jacobian Updates SdmOrtho ClmFitter SimilarityModel.
From Verif.Model Require SdmAlgorithm.
From Verif.Spec Require Import ModelInstance Pose Moves.
From Verif.Proofs Require Import ModelInstance MRing Projection Closest SimilarityModel.
From Verif.Proofs Require ClmFitter.
From Coq Require List.
From mathcomp Require Import all_ssreflect all_algebra.
Set Implicit Arguments.
Unset Strict Implicit.
Unset Printing Implicit Defensive.
Import Order.TTheory GRing.Theory Num.Theory.
Local Open Scope ring_scope.

Section Ortho.
Variable F : realFieldType.
Variable N : nat.
Notation shape := 'M[F]_(N, 2).
Notation opdm := (opdm F N).
Notation static := (@Verif.Proofs.ClmFitter.static F N).
Variable align : shape -> shape -> sim F.
Hypothesis FS : follows_shifts align.
Variable o : F * F.
Definition offs : shape := \matrix_(i, j) (if j == 0 then o.1 else o.2).
Lemma shiftedE (s : shape) : shifted o s = s + offs.
Proof. by apply/matrixP => i j; rewrite !mxE. Qed.
Definition ssim (g : sim F) : sim F := Sim (s_a g) (s_b g) (s_tx g + o.1) (s_ty g + o.2).
Lemma ssim_apply g (s : shape) : sim_apply (ssim g) s = shifted o (sim_apply g s).
Proof. apply/matrixP => i j. rewrite !mxE /=. case: (ord2 j) => -> /=; by rewrite addrA. Qed.
Lemma ssim_pinv g (s : shape) : sim_pinv_apply (ssim g) (shifted o s) = sim_pinv_apply g s.
Proof.
  rewrite /sim_pinv_apply /=. case: ifP => // _. congr Ok. apply/matrixP => i j. rewrite !mxE. apply: eq_bigr => k _.
  congr (_ * _). rewrite !mxE /=. case: (ord2 k) => -> /=; by rewrite opprD addrACA subrr addr0.
Qed.

(** What the shift adds to the similarity weights. *)
Definition delta (d : opdm) : seq F := [seq dot offs c | c <- o_simcomps d].
Definition shift_vec (d : opdm) (v : seq F) : seq F := [seq nth 0 v i + nth 0 (delta d) i | i <- iota 0 (size v)].
Lemma shift_size d v : size (shift_vec d v) = size v.
Proof. by rewrite size_map size_iota. Qed.
Lemma shift_nth d v i : (i < size v)%N -> nth 0 (shift_vec d v) i = nth 0 v i + nth 0 (delta d) i.
Proof. move=> I. by rewrite (nth_map 0%N) ?size_iota // nth_iota. Qed.
Lemma delta_nth d i : (size (o_simcomps d) <= i)%N -> nth 0 (delta d) i = 0.
Proof. move=> I. by rewrite nth_default // size_map. Qed.
Lemma shift_static d d' v : static d = static d' -> shift_vec d v = shift_vec d' v.
Proof. by rewrite /shift_vec /delta => -[_ ->]. Qed.
Lemma size_takem (v : seq F) n : size (take n v) = minn n (size v).
Proof. rewrite size_take /minn. by case: ifP. Qed.
Lemma shift_take d v n : take n (shift_vec d v) = shift_vec d (take n v).
Proof.
  rewrite /shift_vec -map_take take_iota size_takem. apply/eq_in_map => i. rewrite mem_iota add0n leq_min => /andP [_ /andP [I _]].
  by rewrite nth_take.
Qed.
Lemma shift_drop d v n : (size (o_simcomps d) <= n)%N -> drop n (shift_vec d v) = drop n v.
Proof.
  move=> K. apply: (@eq_from_nth _ 0); first by rewrite !size_drop shift_size.
  move=> i. rewrite size_drop shift_size => I. rewrite !nth_drop shift_nth; last by rewrite -ltn_subRL.
  rewrite delta_nth ?addr0 //. exact: (leq_trans K (leq_addr _ _)).
Qed.

Lemma offs_span (d : opdm) : trained_pdm d -> offs = \sum_(i < size (o_simcomps d)) nth 0 (delta d) i *: nth 0 (o_simcomps d) i.
Proof.
  move=> [_ [O B]]. have [|w [S W]] := iffRL (B offs).
    exists (Sim 0 0 o.1 o.2) => i /=. rewrite !mxE /=. by rewrite addr0 !mul1r !mul0r subr0 add0r.
  rewrite {1}W. apply: eq_bigr => i _. congr (_ *: _). by rewrite (nth_map 0) // W span_coeff.
Qed.
Lemma sim_project (d : opdm) (t : shape) : project (o_similarity d) (shifted o t) = shift_vec d (project (o_similarity d) t).
Proof.
  have A : active (o_similarity d) = o_simcomps d by rewrite /active /= take_size.
  apply: (@eq_from_nth _ 0); first by rewrite shift_size !project_size.
  move=> k. rewrite project_size => K. rewrite shift_nth ?project_size // !project_nth // (nth_map 0) -?A // shiftedE addrAC.
  exact: dotDl.
Qed.
Lemma sim_linear (d : opdm) q : trained_pdm d -> size q = size (o_simcomps d) ->
  linear_shape (o_similarity d) (shift_vec d q) = shifted o (linear_shape (o_similarity d) q).
Proof.
  move=> T S. have A : active (o_similarity d) = o_simcomps d by rewrite /active /= take_size.
  rewrite shiftedE /linear_shape -addrA. congr (_ + _). rewrite [X in _ = _ + X](offs_span T) -A -big_split. apply: eq_bigr => i _.
  rewrite shift_nth ?scalerDl //. by rewrite S -A.
Qed.

(** Two states of one model, the second shifted. *)
Definition shifted_state (d d' : opdm) : Prop :=
  static d' = static d /\ size (o_simweights d) = size (o_simcomps d) /\ o_weights d' = o_weights d /\
  o_target d' = shifted o (o_target d) /\ o_sim d' = ssim (o_sim d) /\ o_simweights d' = shift_vec d (o_simweights d).
Definition shifted_outcome (r r' : opdm * res unit) : Prop :=
  match r.2, r'.2 with
  | Ok _, Ok _ => shifted_state r.1 r'.1
  | Err e, Err e' => e = e'
  | _, _ => False
  end.
Lemma trained_static (d d' : opdm) : static d' = static d -> trained_pdm d -> trained_pdm d'.
Proof. rewrite /trained_pdm => -[-> ->]. by []. Qed.
Lemma shifted_vector (d d' : opdm) : shifted_state d d' -> opdm_vector d' = shift_vec d (opdm_vector d).
Proof.
  move=> [_ [S [W [_ [_ Q]]]]]. rewrite /opdm_vector W Q. apply: (@eq_from_nth _ 0); first by rewrite shift_size !size_cat shift_size.
  move=> i. rewrite size_cat shift_size => I. rewrite shift_nth ?size_cat // !nth_cat shift_size.
  case: (ltnP i (size (o_simweights d))) => K; first by rewrite shift_nth. by rewrite delta_nth ?addr0 // -S.
Qed.
Lemma regenerate_shifts (d d' : opdm) : static d' = static d -> size (o_simweights d) = size (o_simcomps d) -> o_weights d' = o_weights d ->
  o_sim d' = ssim (o_sim d) -> o_simweights d' = shift_vec d (o_simweights d) -> shifted_outcome (opdm_regenerate d) (opdm_regenerate d').
Proof.
  move=> T S W G Q. case: (T) => M C. rewrite /opdm_regenerate /opdm_generate M W G. case E : instance => [s|e] //=.
  rewrite ssim_apply. split; first by rewrite /static /= C. by rewrite /= S Q.
Qed.

Lemma set_target_shifts s0 (d d' : opdm) t : trained_pdm d -> static d' = static d ->
  shifted_outcome (opdm_set_target align s0 t d) (opdm_set_target align s0 (shifted o t) d').
Proof.
  move=> T E. case: (E) => M C. rewrite /opdm_set_target /opdm_sync_state /opdm_update_global /=.
  have A (u : opdm) w t' g' q' : o_similarity (Opdm (o_model u) w t' g' (o_simcomps u) q') = o_similarity u by [].
  have SM : o_similarity d' = o_similarity d by rewrite /o_similarity M C.
  rewrite !A SM sim_project instance_ok ?project_size // instance_ok ?shift_size ?project_size //.
  have Sz : size (project (o_similarity d) t) = size (o_simcomps d) by rewrite project_size /active /= take_size.
  rewrite sim_linear // FS -/(ssim _) /= ssim_pinv. set g := align _ _.
  case: sim_pinv_apply => [t0|e] //. by apply: regenerate_shifts; rewrite //= M.
Qed.
Lemma from_vector_shifts s0 (d d' : opdm) v : trained_pdm d -> shifted_state d d' -> (size (o_simcomps d) <= size v)%N ->
  shifted_outcome (opdm_from_vector align s0 v d) (opdm_from_vector align s0 (shift_vec d v) d').
Proof.
  move=> T R L. have [E [S [W [_ [_ Q]]]]] := R. case: (E) => M C.
  rewrite /opdm_from_vector Q shift_size S shift_take shift_drop // /opdm_update_global.
  have A (u : opdm) w t' g' q' : o_similarity (Opdm (o_model u) w t' g' (o_simcomps u) q') = o_similarity u by [].
  have SM : o_similarity d' = o_similarity d by rewrite /o_similarity M C.
  have Sz : size (take (size (o_simcomps d)) v) = size (o_simcomps d) by rewrite size_takel.
  have K : (size (take (size (o_simcomps d)) v) <= size (active (o_similarity d)))%N by rewrite Sz /active /= take_size.
  rewrite !A SM instance_ok // instance_ok ?shift_size // sim_linear // FS -/(ssim _) /=. set g := align _ _.
  by apply: regenerate_shifts.
Qed.

(** One update of a constrained local model. *)
Lemma clm_step_shifts (d d' : opdm) P (J : 'M[F]_(N * 2, P)) (w : 'cV[F]_P) b e : shifted_state d d' -> P = size (opdm_vector d) ->
  (forall i : 'I_P, (i < size (o_simcomps d))%N -> w i 0 = 0) ->
  clm_step b J w (\col_i nth 0 (opdm_vector d') i) e = clm_step b J w (\col_i nth 0 (opdm_vector d) i) e.
Proof.
  move=> R S W. rewrite /clm_step. case: clm_precompute => [pre|] //=. congr Ok. rewrite /clm_increment. case: b => //.
  congr (- (_ *m (_ - _))). apply/colP => i. rewrite !mxE (shifted_vector R) shift_nth -?S //.
  case: (ltnP i (size (o_simcomps d))) => K; first by rewrite W // !mul0r. by rewrite delta_nth // addr0.
Qed.
Lemma clm_update_shifts s0 (d d' : opdm) P (J : 'M[F]_(N * 2, P)) (w : 'cV[F]_P) b e : trained_pdm d -> shifted_state d d' -> P = size (opdm_vector d) ->
  (forall i : 'I_P, (i < size (o_simcomps d))%N -> w i 0 = 0) ->
  shifted_outcome (clm_update align s0 b J w d e) (clm_update align s0 b J w d' e).
Proof.
  move=> T R S W. rewrite /clm_update (clm_step_shifts J b e R S W). case: clm_step => [dp|e'] //.
  pose f (p : seq F) (i : nat) := nth 0 p i + (if insub i is Some i' then dp i' 0 else 0).
  rewrite -!/(f _ _).
  have -> : [seq f (opdm_vector d') i | i <- iota 0 (size (opdm_vector d'))] =
            shift_vec d [seq f (opdm_vector d) i | i <- iota 0 (size (opdm_vector d))].
    rewrite (shifted_vector R) shift_size. apply: (@eq_from_nth _ 0); first by rewrite shift_size !size_map.
    move=> i. rewrite size_map size_iota => I. rewrite shift_nth ?size_map ?size_iota // !(nth_map 0%N) ?size_iota // !nth_iota // add0n.
    by rewrite /f shift_nth // addrAC.
  apply: from_vector_shifts => //. rewrite size_map size_iota /opdm_vector size_cat. have [_ [-> _]] := R. exact: leq_addr.
Qed.
Lemma shifted_static (d d' : opdm) : shifted_state d d' -> static d' = static d. Proof. by case. Qed.
End Ortho.

Section Clm.
Variable F : realFieldType.
Variables (N : nat) (Image : Type).
Notation shape := 'M[F]_(N, 2).
Notation opdm := (opdm F N).
Notation static := (@Verif.Proofs.ClmFitter.static F N).
Variable align : shape -> shape -> sim F.
Hypothesis FS : follows_shifts align.
Variable displacement : nat -> Image -> shape -> res 'cV[F]_(N * 2).
Variable next : nat -> Image -> shape -> shape.
Variable exceeds : shape -> shape -> bool.
Hypothesis EX : forall o s t, exceeds (shifted o s) (shifted o t) = exceeds s t.
Variables (im im' : Image) (os : nat -> F * F).
Hypothesis DI : forall k s, displacement k im' (shifted (os k) s) = displacement k im s.
Hypothesis NX : forall k s, next k im' (shifted (os k) s) = shifted (os k.+1) (next k im s).

Notation run := (alg_run align displacement exceeds).
Notation loop := (alg_loop align displacement exceeds).
Notation step := (alg_step align displacement).
Definition plain_prior (a : alg F N) : Prop := forall i : 'I_(a_P a), (i < 4)%N -> a_prior a i 0 = 0.

Lemma step_shifts k b (a : alg F N) (d d' : opdm) : trained_pdm d -> plain_prior a -> shifted_state (os k) d d' ->
  shifted_outcome (os k) (step k im b a d) (step k im' b a d').
Proof.
  move=> T Pa R. rewrite /alg_step. have [E [_ [_ [Tg _]]]] := R. rewrite Tg DI. case: displacement => [e|e] //.
  rewrite (shifted_vector R) shift_size. case: eqP => // S. rewrite /src; case: (E) => -> _.
  apply: clm_update_shifts => //. case: T => -> _. exact: Pa.
Qed.
Definition shifted_run o (r r' : opdm * res (result F N)) : Prop := both (shifted_result o) r.2 r'.2.
Lemma step_trained k i b (a : alg F N) (d : opdm) : trained_pdm d -> trained_pdm (step k i b a d).1.
Proof. move=> T. apply: trained_static T. exact: Verif.Proofs.ClmFitter.step_static. Qed.
Lemma drop_vector o (d d' : opdm) : trained_pdm d -> shifted_state o d d' -> drop 4 (opdm_vector d') = drop 4 (opdm_vector d).
Proof. move=> [S _] R. by rewrite (shifted_vector R) shift_drop // S. Qed.
Lemma loop_shifts k b a m : forall go d d' ss ss' ps ps', trained_pdm d -> plain_prior a -> shifted_state (os k) d d' ->
  shifted_result (os k) (Result ss ps) (Result ss' ps') ->
  shifted_run (os k) (loop m go k im b a d ss ps) (loop m go k im' b a d' ss' ps').
Proof.
  elim: m => [|m IH] go d d' ss ss' ps ps' T Pa R A //=. case: go => //.
  have := step_shifts b T Pa R. have T1 := step_trained k im b a T. case S1 : step => [d1 r1] in T1 *. case S2 : step => [d2 r2]. rewrite /= in T1.
  rewrite /shifted_outcome /=. case: r1 S1 => [[]|e] S1; case: r2 S2 => [[]|e'] S2 //.
  move=> R'. have [_ [_ [_ [Tg _]]]] := R. have [_ [_ [_ [Tg' _]]]] := R'. rewrite Tg Tg' EX. apply: IH => //.
  case: A => /= A1 A2. rewrite /shifted_result /= !map_cat A1 A2 /=. by rewrite (drop_vector T1 R').
Qed.
Lemma run_shifts k b a m (d d' : opdm) s : trained_pdm d -> plain_prior a -> static d' = static d ->
  shifted_run (os k) (run k im s m b a d) (run k im' (shifted (os k) s) m b a d').
Proof.
  move=> T Pa E. rewrite /alg_run /src; case: (E) => -> _.
  have := set_target_shifts FS (os k) (m_mean (o_model d)) s T E. rewrite /shifted_outcome.
  have TS := Verif.Proofs.ClmFitter.target_static align (m_mean (o_model d)) s d.
  case S1 : opdm_set_target => [d1 r1] in TS *. case S2 : opdm_set_target => [d2 r2] /=. rewrite /= in TS.
  case: r1 {S1} => [[]|e]; case: r2 {S2} => [[]|e'] //.
  move=> R. have T1 : trained_pdm d1 by exact: trained_static TS T.
  apply: loop_shifts => //. have [_ [_ [_ [Tg _]]]] := R. rewrite /shifted_result /= Tg. by rewrite (drop_vector T1 R).
Qed.
Lemma last_shifts k (r r' : result F N) (s : shape) : shifted_result (os k) r r' ->
  last (shifted (os k) s) (r_shapes r') = shifted (os k) (last s (r_shapes r)).
Proof. case=> -> _. by rewrite last_map. Qed.
Lemma fit_shifts c c' algs : c_image c = im -> c_image c' = im' -> c_max_iters c' = c_max_iters c -> c_map c' = c_map c ->
  (forall a, List.In a algs -> plain_prior a) ->
  forall k s (ds ds' : seq opdm), (forall d, List.In d ds -> trained_pdm d) -> [seq static d | d <- ds'] = [seq static d | d <- ds] ->
  both (shifted_results os k) (fit_from align displacement next exceeds k c s algs ds).2
       (fit_from align displacement next exceeds k c' (shifted (os k) s) algs ds').2.
Proof.
  move=> I I' Mx Mp. elim: algs => [|a algs IH] Pa k s ds ds' T E; first by [].
  case: ds ds' T E => [|d ds] [|d' ds'] //= T [E1 E2 E3].
  have E0 : static d' = static d by rewrite /Verif.Proofs.ClmFitter.static E1 E2.
  rewrite I I' Mx Mp. have := run_shifts k (c_map c) (nth 0%N (c_max_iters c) k) s (T d (or_introl erefl)) (Pa a (or_introl erefl)) E0.
  rewrite /shifted_run. case S1 : alg_run => [d1 r1]. case S2 : alg_run => [d2 r2] /=.
  case: r1 {S1} => [r1|e]; case: r2 {S2} => [r2|e'] //=. move=> R.
  rewrite (last_shifts s R) NX.
  have := IH (fun a0 H => Pa a0 (or_intror H)) k.+1 (next k im (last s (r_shapes r1))) ds ds' (fun d0 H => T d0 (or_intror H)) E3.
  case: fit_from => [x1 rs1]. case: fit_from => [x2 rs2] /=. by case: rs1 => [rs1|e]; case: rs2 => [rs2|e'].
Qed.
Lemma built_plain noise_variance eigenvalues (d : opdm) a : alg_new noise_variance eigenvalues d = Ok a -> plain_prior a.
Proof.
  rewrite /alg_new. case: opdm_d_dp => [jac|] //=. case: eqP => //= S. case: clm_precompute => //= _ [<-] i I /=.
  rewrite mxE. by case: (nat_of_ord i) I => [|[|[|[|]]]].
Qed.
End Clm.
