From Verif.Model Require Import Py LinAlg History.
From Verif.Spec Require Import LinAlg History.
From Verif.Proofs Require Import LinAlg.
From mathcomp Require Import all_ssreflect all_algebra.
Set Implicit Arguments.
Unset Strict Implicit.
Unset Printing Implicit Defensive.
Import Order.TTheory GRing.Theory Num.Theory.
Local Open Scope ring_scope.

Section P.
Variable F : realFieldType.
Variables (k n : nat) (Image Sh : Type).
Variable project : Sh -> 'cV[F]_n.
Variable target_of : 'cV[F]_n -> Sh.
Variable warp : Image -> 'cV[F]_n -> res 'cV[F]_k.
Variable exceeds : Sh -> Sh -> bool.
Variable cost : 'cV[F]_k -> F.
Variable a_bar_m : 'cV[F]_k.
Variable QJ_m : 'M[F]_(k, n).
Variable pinv_QJ_m : 'M[F]_(n, k).
Variable s2_inv_L : 'cV[F]_n.
Variable jac : Image -> 'cV[F]_n -> res 'M[F]_(k, n).
Variable po : 'M[F]_(k, n) -> 'M[F]_(k, n).

Notation ic := (ic_solve QJ_m pinv_QJ_m s2_inv_L).
Notation fc := (fc_solve s2_inv_L jac po).
Notation D := (diag_mx s2_inv_L^T).

(** Two objects that differ only in the cached Hessian. *)
Definition same (a b : alg F k n) := a_p a = a_p b /\ a_e a = a_e b.
Definition good (solve : Image -> bool -> alg F k n -> alg F k n * res 'cV[F]_n) (mp : bool) (R : alg F k n -> alg F k n -> Prop) :=
  forall img a b, R a b -> R (solve img mp a).1 (solve img mp b).1 /\ (solve img mp a).2 = (solve img mp b).2 /\
     a_p (solve img mp a).1 = a_p a.

Lemma loop_same solve sign (c : call Image Sh) (R : alg F k n -> alg F k n -> Prop) :
  (forall a b, R a b -> same a b) ->
  (forall a b p e, R a b -> R (Alg (a_H a) p e) (Alg (a_H b) p e)) -> good solve (c_map c) R ->
  forall m go a b ps ss cs, R a b ->
   (loop target_of warp exceeds cost a_bar_m solve sign m go c a ps ss cs).2 =
   (loop target_of warp exceeds cost a_bar_m solve sign m go c b ps ss cs).2.
Proof.
  move=> RS RA G. elim=> [|m IH] //= [] // a b ps ss cs Hab.
  have [R1 [R2 R3]] := G (c_image c) a b Hab.
  case Ea : (solve (c_image c) (c_map c) a) R1 R2 R3 => [a1 r].
  case Eb : (solve (c_image c) (c_map c) b) => [b1 r'] /= R1 <- R3.
  case: r {Ea Eb} => [dp|//]. have [P1 E1] := RS _ _ R1. rewrite P1 E1.
  case: (warp _ _) => [i|//] /=. apply: IH. exact: RA.
Qed.
Lemma run_same solve sign (c : call Image Sh) (R : alg F k n -> alg F k n -> Prop) :
  (forall a b, R a b -> same a b) ->
  (forall a b p e, R a b -> R (Alg (a_H a) p e) (Alg (a_H b) p e)) -> good solve (c_map c) R ->
  forall a b, (forall p e, R (Alg (a_H a) p e) (Alg (a_H b) p e)) ->
   (run project target_of warp exceeds cost a_bar_m solve sign c a).2 = (run project target_of warp exceeds cost a_bar_m solve sign c b).2.
Proof.
  move=> RS RA G a b H. rewrite /run. case: (warp _ _) => [i|//]. apply: (loop_same _ RS RA G). exact: H.
Qed.

(** The parameters left in the object. *)
Definition keeps_p (solve : Image -> bool -> alg F k n -> alg F k n * res 'cV[F]_n) := forall img mp a, a_p (solve img mp a).1 = a_p a.
Lemma ic_keeps : keeps_p (fun _ => ic).
Proof. move=> img mp a. rewrite /ic_solve. case: mp => //=. Qed.
Lemma fc_keeps : keeps_p fc. Proof. by []. Qed.
Lemma loop_left solve sign (c : call Image Sh) : keeps_p solve -> forall m go a ps ss cs p0, last p0 ps = a_p a -> ss = [seq target_of p | p <- ps] ->
  forall a' ps' ss' cs', loop target_of warp exceeds cost a_bar_m solve sign m go c a ps ss cs = (a', Ok (ps', ss', cs')) ->
  a_p a' = last p0 ps' /\ ss' = [seq target_of p | p <- ps'].
Proof.
  move=> K. elim=> [|m IH] go a ps ss cs p0 L S a' ps' ss' cs' /=; first by case=> <- <- <- _; rewrite L.
  case: go; last by case=> <- <- <- _; rewrite L.
  case: (solve _ _ _) => [a1 [dp|]] //. case: (warp _ _) => [i|] // H.
  apply: (IH _ _ _ _ _ p0 _ _ _ _ _ _ H); first by rewrite last_cat. by rewrite map_cat S.
Qed.
Lemma run_left solve sign (c : call Image Sh) a : keeps_p solve ->
  match run project target_of warp exceeds cost a_bar_m solve sign c a with
  | (a', Ok (ps, ss, _)) => a_p a' = last (project (c_shape c)) ps /\ ss = [seq target_of p | p <- ps]
  | (a', Err e) => warp (c_image c) (project (c_shape c)) = Err e -> a' = Alg (a_H a) (project (c_shape c)) (a_e a)
  end.
Proof.
  move=> K. rewrite /run. case W : warp => [i|e] /=; last by [].
  case E : loop => [a' [[[ps ss] cs]|e]]; last by []. exact: (loop_left K _ _ E).
Qed.

Lemma ic_good_ml : good (fun _ => ic) false same.
Proof. by move=> img [Ha pa ea] [Hb pb eb] [/= -> ->]; repeat split. Qed.
Lemma fc_good mp : good fc mp same.
Proof. move=> img [Ha pa ea] [Hb pb eb] [/= -> ->]. by repeat split. Qed.
Lemma same_set a b p e : same a b -> same (Alg (a_H a) p e) (Alg (a_H b) p e). Proof. by []. Qed.

Lemma ic_run_ml c a b : c_map c = false ->
  (ic_run project target_of warp exceeds cost a_bar_m QJ_m pinv_QJ_m s2_inv_L c a).2 =
  (ic_run project target_of warp exceeds cost a_bar_m QJ_m pinv_QJ_m s2_inv_L c b).2.
Proof. move=> M. apply: (@run_same _ _ _ same) => //. rewrite M. exact: ic_good_ml. Qed.
Lemma fc_run_any c a b :
  (fc_run project target_of warp exceeds cost a_bar_m s2_inv_L jac po c a).2 =
  (fc_run project target_of warp exceeds cost a_bar_m s2_inv_L jac po c b).2.
Proof. apply: (@run_same _ _ _ same) => //. exact: fc_good. Qed.
Lemma ic_run_eqH c a b : a_H a = a_H b ->
  (ic_run project target_of warp exceeds cost a_bar_m QJ_m pinv_QJ_m s2_inv_L c a).2 =
  (ic_run project target_of warp exceeds cost a_bar_m QJ_m pinv_QJ_m s2_inv_L c b).2.
Proof.
  move=> E. apply: (@run_same _ _ _ (fun a b => a = b)) => //; first by move=> ? ? ->.
  - by move=> ? ? ? ? ->.
  - move=> img x y ->. split=> //. split=> //. rewrite /ic_solve. by case: ifP.
  - by move=> p e; rewrite E.
Qed.

(** The Hessian left behind. *)
Lemma ic_solve_H mp a : a_H (ic mp a).1 = a_H a + (nat_of_bool mp)%:R *: D.
Proof. rewrite /ic_solve. case: mp => /=; by rewrite ?scale1r ?scale0r ?addr0. Qed.
Lemma ic_loop_H sign c : forall m go a ps ss cs, exists t,
  a_H (loop target_of warp exceeds cost a_bar_m (fun _ => ic) sign m go c a ps ss cs).1 = a_H a + t%:R *: D /\
  (c_map c = false -> t = 0%N) /\
  (forall r, (loop target_of warp exceeds cost a_bar_m (fun _ => ic) sign m go c a ps ss cs).2 = Ok r ->
     c_map c -> (size ps + t)%N = size r.1.1).
Proof.
  elim=> [|m IH] go a ps ss cs /=.
    exists 0%N. rewrite scale0r addr0. do 2!split=> //. by move=> r [<-] _; rewrite addn0.
  case: go; last first.
    exists 0%N. rewrite scale0r addr0. do 2!split=> //. by move=> r [<-] _; rewrite addn0.
  have := ic_solve_H (c_map c) a. case: (ic (c_map c) a) => a1 [dp|x] /= E; last first.
    exists (nat_of_bool (c_map c)). rewrite E. split; first by case: (c_map c). split=> //. by move=> ->.
  case: (warp _ _) => [i|x] /=; last first.
    exists (nat_of_bool (c_map c)). rewrite E. split; first by case: (c_map c). split=> //. by move=> ->.
  set L := loop _ _ _ _ _ _ _ _ _ _ _ _ _ _.
  have [t [H1 [H2 H3]]] := IH (exceeds (target_of (a_p a1)) (target_of (update sign (a_p a1) dp))) (Alg (a_H a1) (update sign (a_p a1) dp) (i - a_bar_m))
     (ps ++ [:: update sign (a_p a1) dp]) (ss ++ [:: target_of (update sign (a_p a1) dp)]) (omap (fun l => l ++ [:: cost (i - a_bar_m)]) cs).
  exists (nat_of_bool (c_map c) + t)%N. split.
    rewrite /L H1 /= E. by case: (c_map c); rewrite ?natrD ?scalerDl ?scale0r ?addrA ?addr0.
  split; first by move=> M; rewrite (H2 M) M.
  move=> r Hr M. by rewrite -(H3 r Hr M) M size_cat /= addnA.
Qed.
Lemma ic_run_H c a : exists t,
  a_H (ic_run project target_of warp exceeds cost a_bar_m QJ_m pinv_QJ_m s2_inv_L c a).1 = a_H a + t%:R *: D /\
  (c_map c = false -> t = 0%N) /\
  (forall r, (ic_run project target_of warp exceeds cost a_bar_m QJ_m pinv_QJ_m s2_inv_L c a).2 = Ok r -> c_map c -> size r.1.1 = t.+1).
Proof.
  rewrite /ic_run /run. case: (warp _ _) => [i|x] /=; last by exists 0%N; rewrite scale0r addr0.
  have [t [H1 [H2 H3]]] := ic_loop_H false c (c_max_iters c) true (Alg (a_H a) (project (c_shape c)) (i - a_bar_m)) [:: project (c_shape c)]
    [:: target_of (project (c_shape c))] (if c_costs c then Some [:: cost (i - a_bar_m)] else None).
  exists t. split; first exact: H1. split=> // r Hr M. by rewrite -(H3 r Hr M).
Qed.
Lemma ic_after_ml cs a : List.Forall (fun c => c_map c = false) cs ->
  a_H (after_calls (ic_run project target_of warp exceeds cost a_bar_m QJ_m pinv_QJ_m s2_inv_L) cs a) = a_H a.
Proof.
  move=> H. elim: H a => [|c l M _ IH] a //=. rewrite /after_calls /= -/(after_calls _ l _) IH.
  have [t [-> [/(_ M) -> _]]] := ic_run_H c a. by rewrite scale0r addr0.
Qed.
Lemma ic_after_H cs a : exists t,
  a_H (after_calls (ic_run project target_of warp exceeds cost a_bar_m QJ_m pinv_QJ_m s2_inv_L) cs a) = a_H a + t%:R *: D.
Proof.
  elim: cs a => [|c l IH] a; first by exists 0%N; rewrite scale0r addr0.
  have [t E] := IH (ic_run project target_of warp exceeds cost a_bar_m QJ_m pinv_QJ_m s2_inv_L c a).1.
  have [t' [E' _]] := ic_run_H c a.
  exists (t' + t)%N. by rewrite /after_calls /= -/(after_calls _ l _) E E' natrD scalerDl addrA.
Qed.
End P.

Section App.
Variables (P Image Sh Inner C Cost : Type).
Variable project : Sh -> P.
Variable target_of : P -> Sh.
Variable start : Image -> P -> res Inner.
Variable step : Image -> bool -> P -> Inner -> res (P * Inner).
Variable exceeds : Sh -> Sh -> bool.
Variable app_of : Inner -> C.
Variable cost : Inner -> Cost.
Lemma app_run_any c a b : (app_run project target_of start step exceeds app_of cost c a).2 = (app_run project target_of start step exceeds app_of cost c b).2.
Proof. rewrite /app_run. by case: (start _ _). Qed.
End App.

(** The prior. *)
Section Prior.
Variable F : realFieldType.
Variables k n : nat.
Variables (J : 'M[F]_(k, n)) (w : 'cV[F]_n).
Hypothesis W : forall i, 0 < w i 0.
Lemma map_solve e p : exists2 dp, (solve_shape_map (J^T *m J) J e w p).2 = Ok dp &
  J^T *m (e + J *m dp) + diag_mx w^T *m (p + dp) = 0.
Proof.
  have [dp E N] := solve_shape_map_ok J e p (prior_unit_pos J W). exists dp => //. by rewrite mulmxDr mulmxA.
Qed.
Lemma map_minimum e p dp : J^T *m (e + J *m dp) + diag_mx w^T *m (p + dp) = 0 ->
  unique_minimum (fun q => sqn (e + J *m (q - p)) + wsqn w q) (p + dp).
Proof.
  move=> N. have W' i : 0 <= w i 0 by apply: ltW.
  have [A B] : unique_minimum (fun x => sqn (e + J *m x) + wsqn w (p + x)) dp.
    apply: minimum_of => // h /eqP. by rewrite paddr_eq0 ?sqn_ge0 ?wsqn_ge0 // => /andP [_ /eqP /(wsqn_eq0 W)].
  split=> y.
  - rewrite addrAC subrr add0r. have := A (y - p). by rewrite [p + (y - p)]addrC subrK.
  - rewrite addrAC subrr add0r => L. have := B (y - p). rewrite [p + (y - p)]addrC subrK => /(_ L) <-. by rewrite addrC subrK.
Qed.
Lemma inverse_grows p dp : p != 0 -> J^T *m (0 + J *m dp) + diag_mx w^T *m (p + dp) = 0 -> wsqn w p < wsqn w (p - dp).
Proof.
  move=> P0 N. rewrite add0r in N.
  have W' i : 0 <= w i 0 by apply: ltW.
  have E : diag_mx w^T *m p = - ((J^T *m J + diag_mx w^T) *m dp).
    apply/eqP. rewrite -subr_eq0 opprK mulmxDl -mulmxA. rewrite addrCA -mulmxDr. by rewrite N.
  have dp0 : dp != 0.
    apply/eqP => Z. move: E; rewrite Z mulmx0 oppr0 => /(congr1 (fun v => (p^T *m v) 0 0)).
    rewrite mulmxA -wsqnE mulmx0 [in RHS]mxE => /(wsqn_eq0 W) Q. by rewrite Q eqxx in P0.
  have Q : 0 < sqn (J *m dp) + wsqn w dp.
    rewrite lt_neqAle eq_sym addr_ge0 ?sqn_ge0 ?wsqn_ge0 // andbT.
    apply: contra dp0. by rewrite paddr_eq0 ?sqn_ge0 ?wsqn_ge0 // => /andP [_ /eqP /(wsqn_eq0 W) ->].
  have T : (- dp)^T = - dp^T by rewrite linearN.
  rewrite wsqnD E T mulNmx mulmxN opprK mulmxA prior_quad.
  rewrite -addrA ltr_addl. apply: ltr_paddl; first exact: wsqn_ge0. by rewrite mulr_gt0 // ltr0n.
Qed.
Lemma forward_shrinks p dp : J^T *m (0 + J *m dp) + diag_mx w^T *m (p + dp) = 0 -> wsqn w (p + dp) <= wsqn w p.
Proof.
  move=> N. have [M _] := map_minimum N. have L := M p. rewrite /= in L.
  have Z : sqn (0 : 'cV[F]_k) = 0 by rewrite /sqn big1 // => i0 _; rewrite mxE expr0n.
  rewrite subrr mulmx0 addr0 Z [0 + wsqn w p]add0r in L. apply: le_trans L. by rewrite ler_addr sqn_ge0.
Qed.
End Prior.
