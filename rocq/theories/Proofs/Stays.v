(** Runs whose turns change nothing. *)
From Verif.Model Require Import Py LinAlg History AamRuns.
From Verif.Spec Require Import LinAlg AamRuns Stays.
From Verif.Proofs Require Import LinAlg AamRuns.
From mathcomp Require Import all_ssreflect all_algebra.
Set Implicit Arguments.
Unset Strict Implicit.
Unset Printing Implicit Defensive.
Import Order.TTheory GRing.Theory Num.Theory.
Local Open Scope ring_scope.

Lemma nseq_snoc T q (x : T) : nseq q x ++ [:: x] = nseq q.+1 x.
Proof. by elim: q => //= q ->. Qed.

Section AppStay.
Variable F : realFieldType.
Variables (P Image Sh Inner C : Type).
Variable project : Sh -> P.
Variable target_of : P -> Sh.
Variable start : Image -> P -> res Inner.
Variable step : Image -> bool -> P -> Inner -> res (P * Inner).
Variable exceeds : Sh -> Sh -> bool.
Variable app_of : Inner -> C.
Variable cost : Inner -> F.
Lemma app_loop_stays (c : call Image Sh) p i : (forall y, step (c_image c) (c_map c) p i = Ok y -> y = (p, i)) -> cost i = 0 ->
  forall m (go : bool) q ks a' ps' cs' ss' ks', ks = (if c_costs c then Some (nseq q.+1 0) else None) ->
  app_loop target_of step exceeds app_of cost m go c (AppAlg p i) (nseq q.+1 p) (nseq q.+1 (app_of i)) (nseq q.+1 (target_of p)) ks =
    (a', Ok (ps', cs', ss', ks')) ->
  exists r, [/\ (r <= m)%N, ~~ exceeds (target_of p) (target_of p) -> r = (go && (0 < m))%N :> nat,
                ps' = nseq (q + r).+1 p, cs' = nseq (q + r).+1 (app_of i) /\ ss' = nseq (q + r).+1 (target_of p)
              & ks' = if c_costs c then Some (nseq (q + r).+1 0) else None].
Proof.
  move=> St K. elim=> [|m IH] go q ks a' ps' cs' ss' ks' Eks /=.
  - move=> [_ <- <- <- <-]. exists 0%N. rewrite addn0. split=> //. by rewrite andbF.
  - case: go; last first.
    { move=> [_ <- <- <- <-]. exists 0%N. by rewrite addn0. }
    case E : step => [[p' i']|//]. case: (St _ E) => -> ->. rewrite !nseq_snoc => H.
    have [|r [R1 R2 R3 [R4 R5] R6]] := IH (exceeds (target_of p) (target_of p)) q.+1 _ _ _ _ _ _ _ H.
    { rewrite Eks. case: (c_costs c) => //=. by rewrite K nseq_snoc. }
    exists r.+1. rewrite addnS -addSn. split=> //. move=> X. rewrite (R2 X). by move: X; case: exceeds.
Qed.
Lemma app_run_stays (c : call Image Sh) a a' ps cs ss ks i : start (c_image c) (project (c_shape c)) = Ok i ->
  (forall y, step (c_image c) (c_map c) (project (c_shape c)) i = Ok y -> y = (project (c_shape c), i)) -> cost i = 0 ->
  app_run project target_of start step exceeds app_of cost c a = (a', Ok (ps, cs, ss, ks)) ->
  stays (c_max_iters c) (~~ exceeds (target_of (project (c_shape c))) (target_of (project (c_shape c)))) (project (c_shape c)) (app_of i)
        (target_of (project (c_shape c))) (c_costs c) ps cs ss ks.
Proof.
  move=> E St K. rewrite /app_run E => H.
  have [|r [R1 R2 R3 R4 R5]] := @app_loop_stays c (project (c_shape c)) i St K (c_max_iters c) true 0%N _ _ _ _ _ _ _ H.
  - by rewrite K.
  - by exists r.
Qed.
End AppStay.

Section Stay.
Variable F : realFieldType.
Variables (k n : nat) (Image Sh : Type).
Variable project : Sh -> 'cV[F]_n.
Variable target_of : 'cV[F]_n -> Sh.
Variable warp : Image -> 'cV[F]_n -> res 'cV[F]_k.
Variable exceeds : Sh -> Sh -> bool.
Variable cost : 'cV[F]_k -> F.
Variable a_bar : 'cV[F]_k.
Variable solve : Image -> bool -> alg F k n -> alg F k n * res 'cV[F]_n.
Variable sign : bool.
Lemma update0 (p : 'cV[F]_n) : update sign p 0 = p. Proof. by rewrite /update; case: sign; rewrite ?addr0 ?subr0. Qed.
(** A solver that leaves parameters and error alone and finds no increment as long as the parameters are [p] and the error
    is [e]. *)
Definition idle (img : Image) (mp : bool) (p : 'cV[F]_n) (e : 'cV[F]_k) : Prop :=
  forall a, a_p a = p -> a_e a = e -> forall a1 dp, solve img mp a = (a1, Ok dp) -> [/\ dp = 0, a_p a1 = p & a_e a1 = e].
Lemma loop_stays (c : call Image Sh) p i : idle (c_image c) (c_map c) p (i - a_bar) -> warp (c_image c) p = Ok i -> cost (i - a_bar) = 0 ->
  forall m (go : bool) q ks a a' ps' ss' ks', a_p a = p -> a_e a = i - a_bar -> ks = (if c_costs c then Some (nseq q.+1 0) else None) ->
  loop target_of warp exceeds cost a_bar solve sign m go c a (nseq q.+1 p) (nseq q.+1 (target_of p)) ks = (a', Ok (ps', ss', ks')) ->
  exists r, [/\ (r <= m)%N, ~~ exceeds (target_of p) (target_of p) -> r = (go && (0 < m))%N :> nat,
                ps' = nseq (q + r).+1 p, ss' = nseq (q + r).+1 (target_of p)
              & ks' = if c_costs c then Some (nseq (q + r).+1 0) else None].
Proof.
  move=> St W K. elim=> [|m IH] go q ks a a' ps' ss' ks' Ea Ee Eks /=.
  - move=> [_ <- <- <-]. exists 0%N. rewrite addn0. split=> //. by rewrite andbF.
  - case: go; last first.
    { move=> [_ <- <- <-]. exists 0%N. by rewrite addn0. }
    case E : solve => [a1 [dp|//]]. have [-> P1 _] := St a Ea Ee _ _ E. rewrite P1 update0 W. rewrite !nseq_snoc => H.
    have [| | |r [R1 R2 R3 R4 R5]] := IH (exceeds (target_of p) (target_of p)) q.+1 _ _ _ _ _ _ _ _ _ H; [by []|by []| |].
    { rewrite Eks. case: (c_costs c) => //=. by rewrite K nseq_snoc. }
    exists r.+1. rewrite addnS -addSn. split=> //. move=> X. rewrite (R2 X). by move: X; case: exceeds.
Qed.
Lemma run_stays (c : call Image Sh) a a' ps ss ks i : warp (c_image c) (project (c_shape c)) = Ok i ->
  idle (c_image c) (c_map c) (project (c_shape c)) (i - a_bar) -> cost (i - a_bar) = 0 ->
  run project target_of warp exceeds cost a_bar solve sign c a = (a', Ok (ps, ss, ks)) ->
  stays (c_max_iters c) (~~ exceeds (target_of (project (c_shape c))) (target_of (project (c_shape c)))) (project (c_shape c)) tt
        (target_of (project (c_shape c))) (c_costs c) ps (nseq (size ps) tt) ss ks.
Proof.
  move=> W St K. rewrite /run W /= => H.
  have [| | |r [R1 R2 -> -> ->]] := @loop_stays c (project (c_shape c)) i St W K (c_max_iters c) true 0%N _ _ _ _ _ _ _ _ _ H; [by []|by []|by rewrite K|].
  exists r. by rewrite size_nseq.
Qed.
End Stay.

Section Increments.
Variable F : realFieldType.
Variables (k m n : nat).
Variable A : 'M[F]_(k, m).
Variable P : 'M[F]_(m, k).
Hypothesis PA : penrose A P.
Lemma solve_ml0 (H : 'M[F]_n) (J : 'M[F]_(k, n)) e dp : J^T *m e = 0 -> solve_shape_ml H J e = Ok dp -> dp = 0.
Proof. move=> E. rewrite /solve_shape_ml /np_solve E. case: ifP => //= _ [<-]. by rewrite mulmx0 oppr0. Qed.
Lemma out_T q (J : 'M[F]_(k, q)) (c : 'cV[F]_m) : (project_out A P J)^T *m (A *m c) = 0.
Proof.
  case: PA => E _ S _. rewrite /project_out.
  have -> : J - A *m (P *m J) = (1%:M - A *m P) *m J by rewrite mulmxBl mul1mx mulmxA.
  by rewrite trmx_mul raddfB /= trmx1 S mulmxA -[J^T *m _ *m A]mulmxA mulmxBl mul1mx E subrr mulmx0 mul0mx.
Qed.
Lemma out_cost (c : 'cV[F]_m) : cost_of A P (A *m c) = 0.
Proof.
  case: PA => E _ _ _. rewrite /cost_of /project_out.
  have -> : A *m c - A *m (P *m (A *m c)) = 0 by rewrite !mulmxA E subrr. by rewrite mulmx0 mxE.
Qed.
End Increments.

(** The first turn of a run with the prior. *)
Section First.
Variable F : realFieldType.
Variables (k n : nat) (Image Sh : Type).
Variable project : Sh -> 'cV[F]_n.
Variable target_of : 'cV[F]_n -> Sh.
Variable warp : Image -> 'cV[F]_n -> res 'cV[F]_k.
Variable exceeds : Sh -> Sh -> bool.
Variable cost : 'cV[F]_k -> F.
Variable a_bar : 'cV[F]_k.
Variable solve : Image -> bool -> alg F k n -> alg F k n * res 'cV[F]_n.
Variable sign : bool.
Lemma loop_prefix (c : call Image Sh) : forall q go a ps ss ks a' ps' ss' ks',
  loop target_of warp exceeds cost a_bar solve sign q go c a ps ss ks = (a', Ok (ps', ss', ks')) -> exists t, ps' = ps ++ t.
Proof.
  elim=> [|q IH] go a ps ss ks a' ps' ss' ks' /=; first by move=> [_ <- _ _]; exists [::]; rewrite cats0.
  case: go; last by move=> [_ <- _ _]; exists [::]; rewrite cats0.
  case: solve => [a1 [dp|//]]. case: warp => [i|//] H. have [t ->] := IH _ _ _ _ _ _ _ _ _ H. by eexists; rewrite -catA.
Qed.
Lemma run_first (c : call Image Sh) a a' ps ss ks i : (0 < c_max_iters c)%N -> warp (c_image c) (project (c_shape c)) = Ok i ->
  run project target_of warp exceeds cost a_bar solve sign c a = (a', Ok (ps, ss, ks)) ->
  exists a1 dp t, solve (c_image c) (c_map c) (Alg (a_H a) (project (c_shape c)) (i - a_bar)) = (a1, Ok dp) /\
    ps = project (c_shape c) :: update sign (a_p a1) dp :: t.
Proof.
  move=> L W. rewrite /run W. case: (c_max_iters c) L => // q _ /=. case: solve => [a1 [dp|//]]. case: warp => [i'|//] H.
  have [t ->] := loop_prefix H. by exists a1, dp, t.
Qed.
Lemma update_fix (p dp : 'cV[F]_n) : update sign p dp = p -> dp = 0.
Proof. rewrite /update. case: sign => E; [apply: (addrI p)|apply: oppr_inj; apply: (addrI p)]; by rewrite E ?oppr0 addr0. Qed.
Lemma map_still (H : 'M[F]_n) (J : 'M[F]_(k, n)) e (w p dp : 'cV[F]_n) : (forall i, 0 < w i 0) -> J^T *m e = 0 ->
  (solve_shape_map H J e w p).2 = Ok dp -> dp = 0 -> p = 0.
Proof.
  move=> W E. rewrite /solve_shape_map /= E addr0 /np_solve. case: ifP => // U [<-] /eqP. rewrite oppr_eq0 => /eqP Z.
  have : \col_i (w i 0 * p i 0) = 0 by rewrite -[LHS](mulKVmx U) Z mulmx0.
  move=> /colP Q. apply/colP => j. move: (Q j). rewrite !mxE => /eqP. rewrite mulf_eq0 gt_eqF //=. by move/eqP.
Qed.
End First.
