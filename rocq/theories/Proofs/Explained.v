From Verif.Model Require Import Py LinAlg History SdFeatures.
From Verif.Spec Require Import LinAlg Explained.
From mathcomp Require Import all_ssreflect all_algebra.
Set Implicit Arguments.
Unset Strict Implicit.
Unset Printing Implicit Defensive.
Import GRing.Theory Num.Theory.
Local Open Scope ring_scope.

Section P.
Variable F : realFieldType.
Variables (k m : nat).
Variable A : 'M[F]_(k, m).
Variable P : 'M[F]_(m, k).
Hypothesis PA : penrose A P.
Set Default Proof Using "PA".
Lemma po_kills (c : 'cV[F]_m) : project_out A P (A *m c) = 0.
Proof. case: PA => APA _ _ _. by rewrite /project_out mulmxA mulmxA APA subrr. Qed.
Lemma po_add (x : 'cV[F]_k) c : project_out A P (x + A *m c) = project_out A P x.
Proof.
  have : project_out A P (x + A *m c) = project_out A P x + project_out A P (A *m c).
    by rewrite /project_out !mulmxDr opprD addrACA.
  by rewrite po_kills addr0.
Qed.
Lemma AtQ j (x : 'M[F]_(k, j)) : A^T *m project_out A P x = 0.
Proof.
  case: PA => APA _ S _. rewrite /project_out mulmxBr !mulmxA.
  have -> : A^T *m A *m P = A^T by rewrite -mulmxA -S -trmx_mul APA.
  exact: subrr.
Qed.
Lemma QtA n (J : 'M[F]_(k, n)) (c : 'cV[F]_m) : (project_out A P J)^T *m (A *m c) = 0.
Proof. by rewrite mulmxA -[A]trmxK -trmx_mul trmxK AtQ trmx0 mul0mx. Qed.
Lemma cost_add (x : 'cV[F]_k) c : cost_of A P (x + A *m c) = cost_of A P x.
Proof.
  rewrite /cost_of po_add. have -> : (x + A *m c)^T = x^T + c^T *m A^T by rewrite [LHS]linearD /= trmx_mul.
  by rewrite mulmxDl -(mulmxA c^T) AtQ mulmx0 addr0.
Qed.
Lemma weights_add (x d : 'cV[F]_k) : orthogonal A d -> P *m (x + d) = P *m x.
Proof.
  case: PA => _ PAP S _ O. rewrite mulmxDr. have -> : P *m d = 0; last by rewrite addr0.
  by rewrite -PAP -mulmxA -mulmxA (mulmxA A) -S trmx_mul -(mulmxA P^T) O !mulmx0.
Qed.

Section Run.
Variables (n : nat) (Image Sh : Type).
Variable project : Sh -> 'cV[F]_n.
Variable target_of : 'cV[F]_n -> Sh.
Variable warp : Image -> 'cV[F]_n -> res 'cV[F]_k.
Variable exceeds : Sh -> Sh -> bool.
Variable a_bar_m : 'cV[F]_k.
Variable J : 'M[F]_(k, n).
Variable pinv_QJ_m : 'M[F]_(n, k).
Variable s2_inv_L : 'cV[F]_n.
Variables im im' : Image.
Hypothesis D : forall p, differ_by warp (combination A) im im' p.
Hypothesis PQ : np_solve ((project_out A P J)^T *m J) (project_out A P J)^T = Ok pinv_QJ_m.
Notation QJ := (project_out A P J).
Notation solve := (fun _ : Image => @ic_solve F k n QJ pinv_QJ_m s2_inv_L).
Notation lp := (@loop F k n Image Sh target_of warp exceeds (cost_of A P) a_bar_m solve false).
Definition related (a b : alg F k n) : Prop := [/\ a_H a = a_H b, a_p a = a_p b & combination A (a_e b - a_e a)].
Set Default Proof Using "PA PQ".
Lemma pinv_kills (c : 'cV[F]_m) : pinv_QJ_m *m (A *m c) = 0.
Proof. move: PQ. rewrite /np_solve. case: ifP => // _ [<-]. by rewrite -mulmxA QtA mulmx0. Qed.
Lemma solve_related mi a b : related a b ->
  snd (ic_solve QJ pinv_QJ_m s2_inv_L mi a) = snd (ic_solve QJ pinv_QJ_m s2_inv_L mi b) /\
  related (fst (ic_solve QJ pinv_QJ_m s2_inv_L mi a)) (fst (ic_solve QJ pinv_QJ_m s2_inv_L mi b)).
Proof.
  case: a b => [H p e] [H' p' e'] [/= <- <- [c Ec]]. have -> : e' = e + A *m c by rewrite -Ec addrC subrK.
  rewrite /ic_solve. case: mi => /=.
  - rewrite mulmxDr QtA addr0. split=> //. split=> //=. by exists c; rewrite addrC addKr.
  - rewrite mulmxDr pinv_kills addr0. split=> //. split=> //=. by exists c; rewrite addrC addKr.
Qed.
Set Default Proof Using "PA PQ D".
Lemma loop_related (c c' : call Image Sh) : c_image c = im -> c_image c' = im' -> c_map c = c_map c' ->
  forall f go a b ps ss cs, related a b ->
  snd (lp f go c a ps ss cs) = snd (lp f go c' b ps ss cs) /\ related (fst (lp f go c a ps ss cs)) (fst (lp f go c' b ps ss cs)).
Proof.
  move=> I1 I2 Mi. elim=> [|f IH] go a b ps ss cs R //=. case: go; last by [].
  have [E1 R1] := solve_related (c_map c) R. rewrite -Mi.
  move: E1 R1. case: (ic_solve QJ pinv_QJ_m s2_inv_L (c_map c) a) => a1 r1. case: (ic_solve QJ pinv_QJ_m s2_inv_L (c_map c) b) => b1 r2 /= <- R1.
  case: r1 => [dp|x] //. case: R1 => EH EP EE. rewrite -EP.
  set p' := (a_p a1 - dp). have := D p'. rewrite /differ_by I1 I2.
  case: (warp im p') => [x|x]; case: (warp im' p') => [y|y] //=.
  - move=> [d [-> [w ->]]]. have -> : cost_of A P (x + A *m w - a_bar_m) = cost_of A P (x - a_bar_m) by rewrite addrAC cost_add.
    apply: IH. split=> //=. exists w. by rewrite opprB addrA subrK addrC addKr.
  - by move=> <-.
Qed.
Lemma run_related (c c' : call Image Sh) a b : c_image c = im -> c_image c' = im' -> c_shape c = c_shape c' -> c_max_iters c = c_max_iters c' ->
  c_costs c = c_costs c' -> c_map c = c_map c' -> a_H a = a_H b ->
  let run := @ic_run F k n Image Sh project target_of warp exceeds (cost_of A P) a_bar_m QJ pinv_QJ_m s2_inv_L in
  snd (run c a) = snd (run c' b).
Proof.
  move=> I1 I2 Is Im Ic Mi EH run. rewrite /run /ic_run /History.run -Is -Im -Ic I1 I2. have := D (project (c_shape c)). rewrite /differ_by.
  case: (warp im (project (c_shape c))) => [x|x]; case: (warp im' (project (c_shape c))) => [y|y] //=; last by move=> <-.
  move=> [d [-> [w ->]]]. have -> : cost_of A P (x + A *m w - a_bar_m) = cost_of A P (x - a_bar_m) by rewrite addrAC cost_add.
  apply: (proj1 (loop_related _ _ _ _ _ _ _ _ _)) => //. split=> //=. exists w. by rewrite opprB addrA subrK addrC addKr.
Qed.
End Run.
End P.
