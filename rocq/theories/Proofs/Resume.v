From Verif.Model Require Import Py LinAlg History.
From Verif.Proofs Require History.
From Verif.Spec Require Import Resume.
From mathcomp Require Import all_ssreflect all_algebra.
Set Implicit Arguments.
Unset Strict Implicit.
Unset Printing Implicit Defensive.
Import GRing.Theory Num.Theory.
Local Open Scope ring_scope.

Lemma omap_pre A (pre x : option (seq A)) y :
  omap (cat^~ [:: y]) (joined_opt pre x) = joined_opt pre (omap (cat^~ [:: y]) x) \/ x = Some [::] \/ x = None \/ pre = None.
Proof. case: pre x => [p|] [[|a l]|] /=; try (by right; auto); left. by rewrite /joined catA. Qed.
Lemma joined_cat A (l : seq A) a r : joined l (a :: r) = l ++ r. Proof. by []. Qed.

Section Generic.
Variable F : realFieldType.
Variables (k n : nat) (Image Sh : Type).
Variable project : Sh -> 'cV[F]_n.
Variable target_of : 'cV[F]_n -> Sh.
Variable warp : Image -> 'cV[F]_n -> res 'cV[F]_k.
Variable exceeds : Sh -> Sh -> bool.
Variable cost : 'cV[F]_k -> F.
Variable a_bar_m : 'cV[F]_k.
Variable solve : Image -> bool -> alg F k n -> alg F k n * res 'cV[F]_n.
Variable sign : bool.
Hypothesis keeps : Proofs.History.keeps_p solve.
Notation loop := (loop target_of warp exceeds cost a_bar_m solve sign).
Notation run := (run project target_of warp exceeds cost a_bar_m solve sign).

(** The loop does not read its lists. *)
Definition pre_out (ps : seq 'cV[F]_n) (ss : seq Sh) (ks : option (seq F)) (r : alg F k n * res (seq 'cV[F]_n * seq Sh * option (seq F))) :=
  match r with
  | (a, Ok (ps', ss', ks')) => (a, Ok (ps ++ ps', ss ++ ss', match ks, ks' with Some x, Some y => Some (x ++ y) | _, _ => None end))
  | (a, Err e) => (a, Err e)
  end.
Lemma loop_pre m : forall go c a ps ss ks ps0 ss0 ks0, isSome ks = isSome ks0 ->
  loop m go c a (ps0 ++ ps) (ss0 ++ ss) (match ks0, ks with Some x, Some y => Some (x ++ y) | _, _ => None end) =
  pre_out ps0 ss0 ks0 (loop m go c a ps ss ks).
Proof.
  elim: m => [|m IH] go c a ps ss ks ps0 ss0 ks0 K //=. case: go => //. case: solve => [a1 [dp|e]] //.
  case: warp => [i|e] //. rewrite -!catA -IH; last by case: ks K.
  by case: ks0 ks K => [x|] [y|] //= _; rewrite -catA.
Qed.
(** A run that used up its budget without converging can be cut anywhere. *)
Definition settled (c : call Image Sh) (a : alg F k n) := exists2 i, warp (c_image c) (a_p a) = Ok i & a_e a = i - a_bar_m.
Lemma loop_add m r : forall go c a ps ss ks a1 ps1 ss1 ks1 s0, loop m go c a ps (rcons ss s0) ks = (a1, Ok (ps1, ss1, ks1)) ->
  target_of (a_p a) = s0 -> settled c a ->
  size ps1 = (size ps + m)%N -> (m = 0%N -> go) -> (forall pre x y, ss1 = pre ++ [:: x; y] -> (0 < m)%N -> exceeds x y) ->
  loop (m + r) go c a ps (rcons ss s0) ks = loop r true c a1 ps1 ss1 ks1 /\ settled c a1.
Proof.
  elim: m => [|m IH] go c a ps ss ks a1 ps1 ss1 ks1 s0 /=.
    move=> [<- <- <- <-] _ St _ G _. by rewrite add0n G.
  case: go; last first.
    move=> [_ <- _ _] _ _ /eqP. by rewrite -[X in X == _]addn0 eqn_add2l.
  have Kp := keeps (c_image c) (c_map c) a. case Sv : solve => [a' [dp|e]] //=. rewrite Sv /= in Kp.
  case W : warp => [i|e] //. rewrite !cats1 => L P0 St Sz _ Mv.
  have St' : settled c (Alg (a_H a') (update sign (a_p a') dp) (i - a_bar_m)) by exists i.
  have G0 : m = 0%N -> exceeds (target_of (a_p a')) (target_of (update sign (a_p a') dp)).
    move=> M0. move: L. rewrite M0 /= => [[_ _ Es _]]. rewrite -Kp in P0. rewrite P0. apply: (Mv ss) => //. by rewrite -Es -cats1 -cats1 -catA.
  have Sz' : size ps1 = (size (rcons ps (update sign (a_p a') dp)) + m)%N by rewrite Sz size_rcons addnS.
  exact: (IH _ _ _ _ _ _ _ _ _ _ _ L erefl St' Sz' G0 (fun pre x y E _ => Mv pre x y E isT)).
Qed.
Lemma loop_costs m : forall go c a ps ss ks a1 ps1 ss1 ks1, loop m go c a ps ss ks = (a1, Ok (ps1, ss1, ks1)) -> isSome ks1 = isSome ks.
Proof.
  elim: m => [|m IH] go c a ps ss ks a1 ps1 ss1 ks1 /=; first by case=> _ _ _ <-.
  case: go; last by case=> _ _ _ <-. case: solve => [a' [dp|]] //. case: warp => [i|] // /IH ->. by case: ks.
Qed.
Lemma run_continues (c : call Image Sh) m r a a1 ps ss ks : c_max_iters c = m ->
  run c a = (a1, Ok (ps, ss, ks)) -> size ps = m.+1 -> still_moving exceeds ss ->
  project (last (c_shape c) ss) = last (project (c_shape c)) ps ->
  run (Call (c_image c) (c_shape c) (m + r) (c_costs c) (c_map c)) a =
  continued ps ss ks (run (Call (c_image c) (last (c_shape c) ss) r (c_costs c) (c_map c)) a1).
Proof.
  move=> M R Sz Mv Pj. have := Proofs.History.run_left project target_of warp exceeds cost a_bar_m sign c a keeps. rewrite R => [[Ap Es]].
  move: R. rewrite /run /=. case W : warp => [i|] //. set c' := Call _ _ _ _ _. set a2 := Alg _ _ (i - _). rewrite M => L.
  have Lc m' go a' ps' ss' ks' : loop m' go c' a' ps' ss' ks' = loop m' go c a' ps' ss' ks'.
    by elim: m' go a' ps' ss' ks' => //= m' IH go a' ps' ss' ks'; case: go => //; case: solve => [a3 [dp|]] //; case: warp.
  rewrite Lc.
  have [|||||->[j Wj Ej]] := @loop_add m r true c a2 [:: project (c_shape c)] [::] _ a1 ps ss ks (target_of (project (c_shape c))) L.
  - by [].
  - by exists i.
  - by rewrite /= add1n.
  - by [].
  - by move=> pre x y E _; apply: (Mv pre).
  rewrite Pj -Ap Wj -Ej. set c2 := Call _ _ r _ _.
  have Lc2 m' go a' ps' ss' ks' : loop m' go c2 a' ps' ss' ks' = loop m' go c a' ps' ss' ks'.
    by elim: m' go a' ps' ss' ks' => //= m' IH go a' ps' ss' ks'; case: go => //; case: solve => [a3 [dp|]] //; case: warp.
  rewrite Lc2 -/(continued _ _ _ _).
  have -> : Alg (a_H a1) (a_p a1) (a_e a1) = a1 by case: (a1).
  have := loop_costs L. move=> Kk.
  have K0 : isSome ks = isSome (if c_costs c then Some ([::] : seq F) else None) by rewrite Kk; case: (c_costs c).
  have H1 := @loop_pre r true c a1 [::] [::] (if c_costs c then Some [::] else None) ps ss ks (esym K0).
  have H2 := @loop_pre r true c a1 [::] [::] (if c_costs c then Some [::] else None) [:: a_p a1] [:: target_of (a_p a1)]
    (if c_costs c then Some [:: cost (a_e a1)] else None) (ltac:(by case: (c_costs c))).
  rewrite !cats0 in H1 H2.
  have -> : loop r true c a1 ps ss ks = pre_out ps ss ks (loop r true c a1 [::] [::] (if c_costs c then Some [::] else None)).
    rewrite -H1. congr loop. by case: (ks) (c_costs c) Kk => [l|] [] //= _; rewrite cats0.
  have -> : loop r true c a1 [:: a_p a1] [:: target_of (a_p a1)] (if c_costs c then Some [:: cost (a_e a1)] else None) =
      pre_out [:: a_p a1] [:: target_of (a_p a1)] (if c_costs c then Some [:: cost (a_e a1)] else None)
        (loop r true c a1 [::] [::] (if c_costs c then Some [::] else None)).
    rewrite -H2. congr loop. by case: (c_costs c).
  case Lr : loop => [a4 [[[p4 s4] k4]|e]] //=. do 3 f_equal. have {Lr} := loop_costs Lr.
  by move: Kk; case: (ks) (c_costs c) => [l|] [] //; case: k4.
Qed.
End Generic.

(** Algorithms that keep appearance parameters. *)
Section App.
Variables (P Image Sh Inner C Cost : Type).
Variable project : Sh -> P.
Variable target_of : P -> Sh.
Variable start : Image -> P -> res Inner.
Variable step : Image -> bool -> P -> Inner -> res (P * Inner).
Variable exceeds : Sh -> Sh -> bool.
Variable app_of : Inner -> C.
Variable cost : Inner -> Cost.
Hypothesis fresh : forall img b p i p' i', start img p = Ok i -> step img b p i = Ok (p', i') -> start img p' = Ok i'.
Notation loop := (app_loop target_of step exceeds app_of cost).
Notation run := (app_run project target_of start step exceeds app_of cost).

Definition app_pre (ps : seq P) (cs : seq C) (ss : seq Sh) (ks : option (seq Cost)) (r : app_alg P Inner * res (seq P * seq C * seq Sh * option (seq Cost))) :=
  match r with
  | (a, Ok (ps', cs', ss', ks')) => (a, Ok (ps ++ ps', cs ++ cs', ss ++ ss', match ks, ks' with Some x, Some y => Some (x ++ y) | _, _ => None end))
  | (a, Err e) => (a, Err e)
  end.
Lemma app_loop_pre m : forall go c a ps cs ss ks ps0 cs0 ss0 ks0, isSome ks = isSome ks0 ->
  loop m go c a (ps0 ++ ps) (cs0 ++ cs) (ss0 ++ ss) (match ks0, ks with Some x, Some y => Some (x ++ y) | _, _ => None end) =
  app_pre ps0 cs0 ss0 ks0 (loop m go c a ps cs ss ks).
Proof.
  elim: m => [|m IH] go c a ps cs ss ks ps0 cs0 ss0 ks0 K //=. case: go => //. case: step => [[p' i']|] //.
  rewrite -!catA -IH; last by case: ks K.
  by case: ks0 ks K => [x|] [y|] //= _; rewrite -catA.
Qed.
Lemma app_loop_costs m : forall go c a ps cs ss ks a1 ps1 cs1 ss1 ks1, loop m go c a ps cs ss ks = (a1, Ok (ps1, cs1, ss1, ks1)) -> isSome ks1 = isSome ks.
Proof.
  elim: m => [|m IH] go c a ps cs ss ks a1 ps1 cs1 ss1 ks1 /=; first by case=> _ _ _ _ <-.
  case: go; last by case=> _ _ _ _ <-. case: step => [[p' i']|] // /IH ->. by case: ks.
Qed.
Lemma app_loop_add m r : forall go c a ps cs ss ks a1 ps1 cs1 ss1 ks1 s0, loop m go c a ps cs (rcons ss s0) ks = (a1, Ok (ps1, cs1, ss1, ks1)) ->
  target_of (g_p a) = s0 -> start (c_image c) (g_p a) = Ok (g_inner a) ->
  size ps1 = (size ps + m)%N -> (m = 0%N -> go) -> (forall pre x y, ss1 = pre ++ [:: x; y] -> (0 < m)%N -> exceeds x y) ->
  [/\ loop (m + r) go c a ps cs (rcons ss s0) ks = loop r true c a1 ps1 cs1 ss1 ks1, start (c_image c) (g_p a1) = Ok (g_inner a1),
      (forall s1, last s1 ss1 = target_of (g_p a1)) & forall p0, last p0 ps = g_p a -> last p0 ps1 = g_p a1].
Proof.
  elim: m => [|m IH] go c a ps cs ss ks a1 ps1 cs1 ss1 ks1 s0 /=.
    move=> [<- <- <- <- <-] T St _ G _. rewrite add0n G //. split=> // s1. by rewrite last_rcons.
  case: go; last first.
    move=> [_ <- _ _ _] _ _ /eqP. by rewrite -[X in X == _]addn0 eqn_add2l.
  case Sv : step => [[p' i']|e] //. rewrite !cats1 => L P0 St Sz _ Mv.
  have St' := fresh St Sv.
  have G0 : m = 0%N -> exceeds (target_of (g_p a)) (target_of p').
    move=> M0. move: L. rewrite M0 /= => [[_ _ _ Es _]]. rewrite P0. apply: (Mv ss) => //. by rewrite -Es -cats1 -cats1 -catA.
  have Sz' : size ps1 = (size (rcons ps p') + m)%N by rewrite Sz size_rcons addnS.
  have [A B C' D] := IH _ _ (AppAlg p' i') _ _ _ _ _ _ _ _ _ _ L erefl St' Sz' G0 (fun pre x y E _ => Mv pre x y E isT).
  split=> // p0 _. apply: D. by rewrite last_rcons.
Qed.
Lemma app_run_continues (c : call Image Sh) m r a a1 ps cs ss ks : c_max_iters c = m ->
  run c a = (a1, Ok (ps, cs, ss, ks)) -> size ps = m.+1 -> still_moving exceeds ss ->
  project (last (c_shape c) ss) = last (project (c_shape c)) ps ->
  run (Call (c_image c) (c_shape c) (m + r) (c_costs c) (c_map c)) a =
  continued_app ps cs ss ks (run (Call (c_image c) (last (c_shape c) ss) r (c_costs c) (c_map c)) a1).
Proof.
  move=> M R Sz Mv Pj. move: R. rewrite /app_run /=. case W : start => [i|] //. set c' := Call _ _ _ _ _. set a2 := AppAlg _ i. rewrite M => L.
  have Lc m' go a' ps' cs' ss' ks' : loop m' go c' a' ps' cs' ss' ks' = loop m' go c a' ps' cs' ss' ks'.
    by elim: m' go a' ps' cs' ss' ks' => //= m' IH go a' ps' cs' ss' ks'; case: go => //; case: step => [[p' i']|].
  rewrite Lc.
  have [|||||-> St Tg Lp] := @app_loop_add m r true c a2 [:: project (c_shape c)] [:: app_of i] [::] _ a1 ps cs ss ks (target_of (project (c_shape c))) L.
  - by [].
  - by [].
  - by rewrite /= add1n.
  - by [].
  - by move=> pre x y E _; apply: (Mv pre).
  have {}Lp := Lp (project (c_shape c)) erefl. rewrite Pj Lp St. set c2 := Call _ _ r _ _.
  have Lc2 m' go a' ps' cs' ss' ks' : loop m' go c2 a' ps' cs' ss' ks' = loop m' go c a' ps' cs' ss' ks'.
    by elim: m' go a' ps' cs' ss' ks' => //= m' IH go a' ps' cs' ss' ks'; case: go => //; case: step => [[p' i']|].
  rewrite Lc2. have -> : AppAlg (g_p a1) (g_inner a1) = a1 by case: (a1).
  have := app_loop_costs L. move=> Kk.
  have K0 : isSome ks = isSome (if c_costs c then Some ([::] : seq Cost) else None) by rewrite Kk; case: (c_costs c).
  have H1 := @app_loop_pre r true c a1 [::] [::] [::] (if c_costs c then Some [::] else None) ps cs ss ks (esym K0).
  have H2 := @app_loop_pre r true c a1 [::] [::] [::] (if c_costs c then Some [::] else None) [:: g_p a1] [:: app_of (g_inner a1)] [:: target_of (g_p a1)]
    (if c_costs c then Some [:: cost (g_inner a1)] else None) (ltac:(by case: (c_costs c))).
  rewrite !cats0 in H1 H2.
  have -> : loop r true c a1 ps cs ss ks = app_pre ps cs ss ks (loop r true c a1 [::] [::] [::] (if c_costs c then Some [::] else None)).
    rewrite -H1. congr app_loop. by case: (ks) (c_costs c) Kk => [l|] [] //= _; rewrite cats0.
  have -> : loop r true c a1 [:: g_p a1] [:: app_of (g_inner a1)] [:: target_of (g_p a1)] (if c_costs c then Some [:: cost (g_inner a1)] else None) =
      app_pre [:: g_p a1] [:: app_of (g_inner a1)] [:: target_of (g_p a1)] (if c_costs c then Some [:: cost (g_inner a1)] else None)
        (loop r true c a1 [::] [::] [::] (if c_costs c then Some [::] else None)).
    rewrite -H2. congr app_loop. by case: (c_costs c).
  case Lr : app_loop => [a4 [[[[p4 c4] s4] k4]|e]] //=. do 3 f_equal. have {Lr} := app_loop_costs Lr.
  by move: Kk; case: (ks) (c_costs c) => [l|] [] //; case: k4.
Qed.
End App.

From Verif.Model Require Import AamRuns.
Lemma modified_fresh (F : realFieldType) k m n (Image : Type) (warp : Image -> 'cV[F]_n -> res 'cV[F]_k) (A : 'M[F]_(k, m)) P a_bar s2_inv_L jac sign
    img b p i p' i' : start warp A P a_bar img p = Ok i ->
  modified_turn warp A P a_bar s2_inv_L jac sign img b p i = Ok (p', i') -> start warp A P a_bar img p' = Ok i'.
Proof.
  rewrite /start /modified_turn. case: (warp img p) => [j|] //= [<-]. case: jac => [J|] //=. case: modified_alternating_step => [dp|] //=.
  case W : warp => [j'|] //= [<- <-]. by rewrite W.
Qed.
