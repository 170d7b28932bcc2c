(** A trained model with two components: fitters built upright and after half a turn. *)
From Verif.Model Require Import Py Einsum LinAlg ModelInstance Jacobian Updates.
From Verif.Spec Require Import ModelInstance LinAlg.
From Verif.Model Require Import ClmFitter.
From Verif.Spec Require Import ClmFitter.
From Verif.Proofs Require Import LinAlg MRing ModelInstance Projection ModelExample Jacobian Updates ClmPose ClmFitter.
From Coq Require List.
From mathcomp Require Import all_ssreflect all_algebra.
Set Implicit Arguments.
Unset Strict Implicit.
Unset Printing Implicit Defensive.
Import Order.TTheory GRing.Theory Num.Theory.
Local Open Scope ring_scope.

(** A construction in any pose that scales by [s] without turning. *)
Section New.
Variable F : realFieldType.
Variable N : nat.
Notation shape := 'M[F]_(N, 2).
Variable noise_variance : lmodel F N -> F.
Variable eigenvalues : lmodel F N -> seq F.
Lemma alg_new_ok (d : opdm F N) s : s_a (o_sim d) = s - 1 -> s_b (o_sim d) = 0 ->
  let cs := o_simcomps d ++ [seq s *: c | c <- active (o_model d)] in
  orthonormal cs -> size (o_simcomps d) = 4%N -> size (eigenvalues (o_model d)) = size (active (o_model d)) ->
  0 <= noise_variance (o_model d) -> all (fun e => 0 <= e) (eigenvalues (o_model d)) ->
  exists (J : 'M[F]_(N * 2, size cs)) w, alg_new noise_variance eigenvalues d = Ok (Alg J w) /\ (forall i, 0 <= w i 0) /\
    J^T *m J = 1%:M /\ forall x : shape, J^T *m as_vector x = \col_k dot x (nth 0 cs k).
Proof.
  move=> A B cs O S4 Se Nv Ev.
  have S : t_shape (reshape_comps (o_simcomps d)) = [:: N; size (o_simcomps d); 2%N] by [].
  have [jac E [Sh [L R]]] := global_d_dp_ok (o_model d) (o_sim d) S.
  have Scs : size cs = (size (o_simcomps d) + size (active (o_model d)))%N by rewrite size_cat size_map.
  have Cols (k : 'I_(size cs)) (r : 'I_(N * 2)) : (jacobian_matrix N (size cs) jac) r k = as_vector (nth 0 cs k) r 0.
    rewrite [LHS]mxE [RHS]mxE. have I : (r %/ 2 < N)%N by rewrite ltn_divLR. have C : (r %% 2 < 2)%N by rewrite ltn_mod.
    rewrite /cs nth_cat. case: ltnP => H; first by rewrite L.
    have K' : (k - size (o_simcomps d) < size (active (o_model d)))%N by rewrite ltn_subLR // -Scs.
    have := R (Ordinal I) (k - size (o_simcomps d))%N (Ordinal C) K'. rewrite subnKC // => ->.
    rewrite (nth_map 0) // A B addr0 subr0 if_same. have -> : 1 + (s - 1) = s by rewrite addrC subrK.
    have Q (x : shape) : at_ (s *: x) (r %/ 2) (r %% 2) = s * x (Ordinal I) (Ordinal C).
      rewrite (at_E (s *: x) (Ordinal I) (Ordinal C)). by rewrite mxE.
    by rewrite Q.
  have G := jac_ortho erefl O Cols. have Gr := jac_gram erefl Cols.
  set prior := nseq 4 0 ++ [seq noise_variance (o_model d) / e | e <- eigenvalues (o_model d)].
  exists (jacobian_matrix N (size cs) jac), (\col_i nth 0 prior i).
  have W : forall i : 'I_(size cs), 0 <= (\col_(i < size cs) nth 0 prior i) i 0.
    move=> i. rewrite mxE /prior nth_cat. case: ifP => [_|_]; first by rewrite nth_nseq if_same.
    case: (ltnP (i - size (nseq 4 (0%R : F)))%N (size (eigenvalues (o_model d)))) => Hi; last by rewrite nth_default // size_map.
    rewrite (nth_map 0) // divr_ge0 //. by move/allP: Ev; apply; exact: mem_nth.
  split; last by [].
  rewrite /alg_new /opdm_d_dp E. cbn [bind]. rewrite Sh -/prior. cbn [nth]. rewrite -Scs.
  have -> : size prior = size cs by rewrite Scs size_cat size_map size_nseq S4 Se.
  rewrite eqxx /=. rewrite clm_pre_ok //. by apply: unit_full; rewrite G unitmx1.
Qed.
End New.

Section Example.
Variable F : realFieldType.
Add Ring Fr : (@r_ring F).
Notation half := (2%:R^-1 : F).
Notation lsq := (@lsq F 4).
Definition comp4y : 'M[F]_(4, 2) := \matrix_(i, j) (if j == 0 then 0 else nth 0 [:: half; - half; half; - half] i).
Lemma comp4yE i j : (i < 4)%N -> comp4y (inord i) j = (if j == 0 then 0 else nth 0 [:: half; - half; half; - half] i).
Proof. by move=> I; rewrite mxE inordK. Qed.
Lemma ortho2 : orthonormal [:: comp4 F; comp4y].
Proof.
  have X : dot (comp4 F) comp4y = 0 by rewrite dotE sum4 !comp4E // !comp4yE //=; mring F.
  move=> [|[|i]] [|[|j]] // _ _ /=.
  - exact: (@ortho1 F 0%N 0%N). - by rewrite dotC X.
  - rewrite dotE sum4 !comp4yE //= -[RHS](half_ok F) -four. mring F.
Qed.
Lemma ortho24 c c' : c \in [:: comp4 F; comp4y] -> c' \in basis4 F -> dot c c' = 0.
Proof.
  rewrite inE => /orP [H|]; first by apply: ortho14; rewrite inE.
  rewrite inE => /eqP ->. have R0 i : ModelExample.rot (mean4 F) i 0 = - mean4 F i 1 by rewrite mxE. have R1 i : ModelExample.rot (mean4 F) i 1 = mean4 F i 0 by rewrite mxE.
  have X1 i : txs F 4 i 1 = 0 by rewrite mxE. have Y1 i : tys F 4 i 1 = 1 by rewrite mxE.
  have Y0 i : tys F 4 i 0 = 0 by rewrite mxE. have X0 i : txs F 4 i 0 = 1 by rewrite mxE.
  apply: basis_orth; rewrite dotE sum4 !comp4yE // ?R0 ?R1 ?X0 ?X1 ?Y0 ?Y1 ?mean4E //=; mring F.
Qed.
Definition trained (k : nat) : lmodel F 4 := LModel (mean4 F) [:: comp4 F; comp4y] k.
Lemma trained_sub k c : c \in active (trained k) -> c \in [:: comp4 F; comp4y].
Proof. exact: mem_take. Qed.
Lemma ortho_cat N (xs ys : seq 'M[F]_(N, 2)) : orthonormal xs -> orthonormal ys -> (forall x y, x \in xs -> y \in ys -> dot x y = 0) ->
  orthonormal (xs ++ ys).
Proof.
  move=> X Y Z i j. rewrite size_cat => I J. rewrite !nth_cat. case: ltnP => Hi; case: ltnP => Hj.
  - exact: X.
  - rewrite Z ?mem_nth ?ltn_subLR //. by rewrite ltn_eqF // (leq_trans Hi).
  - rewrite dotC Z ?mem_nth ?ltn_subLR //. by rewrite gtn_eqF // (leq_trans Hj).
  - rewrite Y ?ltn_subLR //. congr (_%:R). by rewrite -{2}(subnKC Hi) -{2}(subnKC Hj) eqn_add2l.
Qed.
Lemma ortho_signed k s : s * s = 1 -> orthonormal (basis4 F ++ [seq s *: c | c <- active (trained k)]).
Proof.
  move=> Q. apply: ortho_cat; first exact: ortho4.
    move=> i j. rewrite size_map => I J. rewrite !(nth_map 0) // dotZl dotC dotZl dotC mulrA Q mul1r. by apply: orthonormal_take => //; exact: ortho2.
  move=> x y X /mapP [c C ->]. rewrite dotC dotZl ortho24 ?mulr0 //. exact: trained_sub C.
Qed.

(** The shape model with [k] active components at the multiple [c] of the mean. *)
Definition at_mean (k : nat) (c : F) : opdm F 4 :=
  Opdm (trained k) (nseq (size (active (trained k))) 0) (c *: mean4 F) (Sim (c - 1) 0 0 0) (basis4 F) [:: (c - 1) * 2%:R; 0; 0; 0].
Lemma lsq_mult (c : F) : lsq (mean4 F) (c *: mean4 F) = Sim (c - 1) 0 0 0.
Proof.
  have [X Y] := @centred4 F. have Z : (4%:R : F) != 0 by rewrite pnatr_eq0.
  have Ze i j : (c *: mean4 F) i j = c * mean4 F i j by rewrite mxE.
  have Sm (f : 'I_4 -> F) g : (forall i, f i = c * g i) -> \sum_i f i = c * \sum_i g i.
    by move=> E; rewrite mulr_sumr; apply: eq_bigr => i _; rewrite E.
  have E1 : \sum_i (mean4 F i 0 * (c *: mean4 F) i 0 + mean4 F i 1 * (c *: mean4 F) i 1) = c * 4%:R.
    rewrite -(norm4 F). apply: Sm => i. rewrite !Ze. mring F.
  have E2 : \sum_i (mean4 F i 0 * (c *: mean4 F) i 1 - mean4 F i 1 * (c *: mean4 F) i 0) = 0.
    by apply: big1 => i _; rewrite !Ze; mring F.
  have E3 : \sum_i (c *: mean4 F) i 0 = 0 by rewrite (Sm _ (fun i => mean4 F i 0)) ?X ?mulr0.
  have E4 : \sum_i (c *: mean4 F) i 1 = 0 by rewrite (Sm _ (fun i => mean4 F i 1)) ?Y ?mulr0.
  by rewrite /ModelExample.lsq E1 E2 E3 E4 (norm4 F) mulfK // !mul0r.
Qed.
Lemma sim_scale (c : F) (x : 'M[F]_(4, 2)) : sim_apply (Sim (c - 1) 0 0 0) x = c *: x.
Proof.
  apply/matrixP => i j. have := sim_applyP (Sim (c - 1) 0 0 0) x i. rewrite /= => -[E0 E1]. rewrite [RHS]mxE.
  have H : 1 + (c - 1) = c by rewrite addrC subrK.
  have [->|->] := ord2 j; rewrite ?E0 ?E1 H mul0r ?subr0 ?add0r addr0 //.
Qed.
Lemma at_mean_global k c : opdm_global lsq (mean4 F) (at_mean k c).
Proof.
  rewrite /opdm_global /= -lsq_mult. congr ModelExample.lsq. rewrite /linear_shape /=.
  apply/matrixP => i j. rewrite addE [LHS]mxE.
  have [B0 B1] := basis_span (mean4 F) half half [:: (c - 1) * 2%:R; 0; 0; 0] i. rewrite /= in B0 B1.
  have H : (c - 1) * 2%:R * half = c - 1 :> F by rewrite mulfK // pnatr_eq0.
  rewrite !mul0r subr0 addr0 H in B0. rewrite !mul0r add0r addr0 H in B1.
  have K (z : F) : c * z = z + (c - 1) * z by mring F.
  have [->|->] := ord2 j; rewrite K; [congr (_ + _); exact: esym B0|congr (_ + _); exact: esym B1].
Qed.
Lemma at_mean_target k c (d : opdm F 4) : c * c = 1 -> static d = (trained k, basis4 F) ->
  opdm_set_target lsq (mean4 F) (c *: mean4 F) d = (at_mean k c, Ok tt).
Proof.
  move=> Q S. have I : opdm_set_target lsq (mean4 F) (c *: mean4 F) (at_mean k c) = (at_mean k c, Ok tt).
    apply: (@opdm_idempotent F 4 lsq (at_mean k c)) => /=.
    - exact: ortho4. - apply: orthonormal_take; exact: ortho2. - move=> x y /trained_sub; exact: ortho24.
    - exact: basis4_ok. - exact: exact4.
    - rewrite /opdm_synced /= linear_zero. apply/similarP. by rewrite sim_scale.
    - exact: at_mean_global.
    - rewrite /sdet /=. have -> : 1 + (c - 1) = c by rewrite addrC subrK. by rewrite expr2 Q expr0n /= addr0 oner_eq0.
    - by rewrite size_nseq. - by [].
  have [A B] := @target_forgets F 4 lsq (mean4 F) (c *: mean4 F) (at_mean k c) d (esym S).
  rewrite -B; by rewrite I.
Qed.

(** The trained world: an upright shape model. *)
Definition nv (m : lmodel F 4) : F := 1.
Definition evs (m : lmodel F 4) : seq F := nseq (size (active m)) 1.
Lemma new_ok k c : c * c = 1 -> (k <= 2)%N ->
  exists (J : 'M[F]_(4 * 2, 4 + k)) w, alg_new nv evs (at_mean k c) = Ok (Alg J w) /\ (forall i, 0 <= w i 0) /\
    J^T *m J = 1%:M /\ forall x, J^T *m as_vector x = \col_(j < 4 + k) dot x (nth 0 (basis4 F ++ [seq c *: y | y <- active (trained k)]) j).
Proof.
  move=> Q K. have := @alg_new_ok F 4 nv evs (at_mean k c) c erefl erefl (ortho_signed (k := k) Q) erefl.
  rewrite /= /evs size_nseq => /(_ erefl ler01).
  have -> : all (fun e : F => 0 <= e) (nseq (size (active (trained k))) 1) by rewrite all_nseq ler01 orbT.
  move/(_ isT). have Sz : size (active (trained k)) = k by rewrite size_take /=; case: ltnP => // H; apply/eqP; rewrite eqn_leq H K.
  by rewrite size_map Sz.
Qed.
(** One iteration from the mean towards the first component. *)
Lemma update_signed (J : 'M[F]_(4 * 2, 5)) (w : 'cV[F]_5) s : (forall i, 0 <= w i 0) -> J^T *m J = 1%:M ->
  (forall x, J^T *m as_vector x = \col_(j < 5) dot x (nth 0 (basis4 F ++ [seq s *: y | y <- active (trained 1)]) j)) ->
  exists2 d', clm_update lsq (mean4 F) false J w (at_mean 1 1) (as_vector (comp4 F)) = (d', Ok tt) & o_target d' = mean4 F + s *: comp4 F.
Proof.
  move=> W G Cols. rewrite /clm_update /clm_step clm_pre_ok //; last by apply: unit_full; rewrite G unitmx1.
  cbn [bind]. rewrite /clm_increment /= G invmx1 mul1mx Cols.
  have Z : (1 - 1) * 2%:R = 0 :> F by rewrite subrr mul0r.
  have D (j : nat) : (j < 5)%N -> dot (comp4 F) (nth 0 (basis4 F ++ [seq s *: y | y <- active (trained 1)]) j) = if j == 4%N then s else 0.
    move=> J5. rewrite nth_cat. case: ltnP => Hj.
      rewrite (ltn_eqF Hj). apply: ortho24; [exact: mem_head|exact: mem_nth].
    have -> : j = 4%N by apply/eqP; rewrite eqn_leq Hj andbT.
    by rewrite /= dotC dotZl (@ortho1 F 0%N 0%N) // mulr1.
  set v := [:: _; _; _; _; _].
  have Ev : v = [:: 0; 0; 0; 0; s].
    have Cj (j : nat) (H : (j < 5)%N) : (\col_(j0 < 5) dot (comp4 F) (nth 0 (basis4 F ++ [seq s *: y | y <- active (trained 1)]) j0)) (Sub j H) 0 = if j == 4%N then s else 0.
      by rewrite [LHS]mxE /= D.
    by rewrite /v Z !insubT !Cj /= !add0r.
  have Sv : (opdm_from_vector lsq (mean4 F) v (at_mean 1 1)).2 = Ok tt by apply: opdm_from_succeeds; rewrite ?Ev.
  case E : (opdm_from_vector lsq (mean4 F) v (at_mean 1 1)) Sv => [d' r] /= Er. rewrite Er in E. exists d'; first by rewrite Er.
  rewrite {}Ev in E.
  have [SY [GL [V [M C]]]] := opdm_from_ok E.
  have Eq : o_simweights d' = nseq 4 0 /\ o_weights d' = [:: s].
    move: E. rewrite /opdm_from_vector. case X : opdm_update_global => [d1 [[]|]] //.
    have [_ [Q1 _]] := opdm_update_ok X. move=> /opdm_regenerate_ok /= [_ [W1 [W2 _]]]. by rewrite W2 Q1 W1.
  case: Eq => S1 S2. rewrite /= in M C.
  have Gs : o_sim d' = Sim (1 - 1) 0 0 0.
    rewrite GL M C S1 linear_zero -lsq_mult scale1r. by [].
  move/similarP: SY => ->. rewrite Gs sim_scale scale1r M S2 /linear_shape /= big_ord1 /=. by [].
Qed.

(** ** The session *)
Definition ortho (x : lmodel F 4) := (basis4 F, x).
Lemma fresh : opdm_new lsq ortho (trained 2) = (at_mean 2 1, Ok tt).
Proof.
  rewrite /opdm_new /opdm_construct [ortho _]/ortho /opdm_generate instance_ok; last by [].
  have L : lsq (mean4 F) (mean4 F) = Sim (1 - 1) 0 0 0 by rewrite -{2}[mean4 F]scale1r lsq_mult.
  rewrite (linear_zero (trained 2)). cbn [bind]. rewrite /= L sim_scale. congr (_, _). rewrite /at_mean. congr Opdm.
  by rewrite /project /= subrr !dot0l subrr mul0r.
Qed.
Notation build := (build lsq nv evs).
Definition towards (k : nat) (img : unit) (s : 'M[F]_(4, 2)) : res 'cV[F]_(4 * 2) := Ok (as_vector (comp4 F)).
Definition unchanged (k : nat) (img : unit) (s : 'M[F]_(4, 2)) := s.
Definition always (s t : 'M[F]_(4, 2)) := true.
Lemma set_at k n c : c * c = 1 -> (0 < n <= 2)%N -> opdm_set_active lsq (mean4 F) n (at_mean k c) = (at_mean n c, Ok tt).
Proof.
  move=> Q /andP [N0 N2]. rewrite /opdm_set_active /set_active /= (gtn_eqF N0) (minn_idPl N2).
  exact: (@at_mean_target n c (Opdm (trained n) _ (c *: mean4 F) _ (basis4 F) _) Q erefl).
Qed.
(** What a fitter built at the multiple [c] of the mean with [k] components is. *)
Definition signed (k : nat) (c : F) (f : seq (alg F 4)) := exists (J : 'M[F]_(4 * 2, 4 + k)) (w : 'cV[F]_(4 + k)),
  f = [:: Alg J w] /\ (forall i, 0 <= w i 0) /\ J^T *m J = 1%:M /\
  forall x, J^T *m as_vector x = \col_(j < 4 + k) dot x (nth 0 (basis4 F ++ [seq c *: y | y <- active (trained k)]) j).
Lemma build_at k n c : c * c = 1 -> (0 < n <= 2)%N -> exists2 f, build (Some [:: n]) [:: at_mean k c] = ([:: at_mean n c], Ok f) & signed n c f.
Proof.
  move=> Q H. have [N0 N2] := andP H. have [J [w [E P]]] := new_ok Q N2. exists [:: Alg J w].
    by rewrite /ClmFitter.build /= [src _]/= set_at //= E.
  by exists J, w.
Qed.
Lemma build_none k c : c * c = 1 -> (k <= 2)%N -> exists2 f, build None [:: at_mean k c] = ([:: at_mean k c], Ok f) & signed k c f.
Proof. move=> Q N2. have [J [w [E P]]] := new_ok Q N2. exists [:: Alg J w]; last by exists J, w. by rewrite /ClmFitter.build /= E. Qed.
Notation fit := (fit lsq towards unchanged always).
(** Without iterations a fit only moves the shape model to its initial shape. *)
Lemma fit_zero f k c d b : c * c = 1 -> size f = 1%N -> static d = (trained k, basis4 F) ->
  exists2 r, fit (Call tt (c *: mean4 F) [:: 0%N] b) f [:: d] = ([:: at_mean k c], Ok [:: r]) & r_params r = [:: opdm_vector (at_mean k c)].
Proof.
  case: f => [|a [|]] // Q _ S. rewrite /ClmFitter.fit /= /alg_run. have -> : src d = mean4 F by case: S => E _; rewrite /src E.
  rewrite (at_mean_target Q S) /=. by eexists.
Qed.
Lemma fit_one f s d : signed 1 s f -> static d = (trained 1, basis4 F) ->
  exists2 r, (fit (Call tt (mean4 F) [:: 1%N] false) f [:: d]).2 = Ok [:: r] & last 0 (r_shapes r) = mean4 F + s *: comp4 F.
Proof.
  move=> [J [w [-> [W [G Cols]]]]] S. rewrite /ClmFitter.fit /= /alg_run. have -> : src d = mean4 F by case: S => E _; rewrite /src E.
  have E1 : 1 * 1 = 1 :> F by rewrite mulr1. have := at_mean_target E1 S. rewrite scale1r => ->.
  have [d' U T] := @update_signed J w s W G Cols.
  rewrite /= /alg_step /= U /=. eexists; first reflexivity. by rewrite /= T.
Qed.
End Example.
