From Verif.Model Require Import Py LinAlg History AamRuns.
From Verif.Spec Require Import LinAlg AamRuns.
From Verif.Proofs Require Import LinAlg.
From mathcomp Require Import all_ssreflect all_algebra.
Set Implicit Arguments.
Unset Strict Implicit.
Unset Printing Implicit Defensive.
Import Order.TTheory GRing.Theory Num.Theory.
Local Open Scope ring_scope.

(** ** Traces of the generic loop *)
Section Trace.
Variables (P Image Sh Inner C Cost : Type).
Variable project : Sh -> P.
Variable target_of : P -> Sh.
Variable start : Image -> P -> res Inner.
Variable step : Image -> bool -> P -> Inner -> res (P * Inner).
Variable exceeds : Sh -> Sh -> bool.
Variable app_of : Inner -> C.
Variable cost : Inner -> Cost.

Fixpoint chain (R : P * Inner -> P * Inner -> Prop) (x : P * Inner) (ts : seq (P * Inner)) : Prop :=
  match ts with [::] => True | y :: ts' => R x y /\ chain R y ts' end.
Lemma chain_nth R x0 : forall ts x j, chain R x ts -> (j < size ts)%N -> R (nth x0 (x :: ts) j) (nth x0 ts j).
Proof. elim=> [|y ts IH] x [|j] //= [H1 H2] L //. exact: IH. Qed.
Lemma chain_inv (R : P * Inner -> P * Inner -> Prop) (I : P * Inner -> Prop) x0 : (forall x y, I x -> R x y -> I y) ->
  forall ts x j, I x -> chain R x ts -> (j <= size ts)%N -> I (nth x0 (x :: ts) j).
Proof. move=> S. elim=> [|y ts IH] x [|j] //= Ix [H1 H2] L. apply: (IH y j) => //. exact: S H1. Qed.

Definition turn (c : call Image Sh) (x y : P * Inner) : Prop := step (c_image c) (c_map c) x.1 x.2 = Ok y.
Lemma loop_trace (c : call Image Sh) : forall m go a ps cs ss ks a' ps' cs' ss' ks',
  app_loop target_of step exceeds app_of cost m go c a ps cs ss ks = (a', Ok (ps', cs', ss', ks')) ->
  exists ts, [/\ chain (turn c) (g_p a, g_inner a) ts, (size ts <= m)%N,
    ps' = ps ++ [seq x.1 | x <- ts], cs' = cs ++ [seq app_of x.2 | x <- ts]
    & ss' = ss ++ [seq target_of x.1 | x <- ts] /\ ks' = omap (fun l => l ++ [seq cost x.2 | x <- ts]) ks].
Proof.
  have Z a' (ps ps' : seq P) (cs cs' : seq C) (ss ss' : seq Sh) (ks ks' : option (seq Cost)) (a : app_alg P Inner) m :
    (a, Ok (ps, cs, ss, ks)) = (a', Ok (ps', cs', ss', ks')) -> exists ts, [/\ chain (turn c) (g_p a, g_inner a) ts, (size ts <= m)%N,
    ps' = ps ++ [seq x.1 | x <- ts], cs' = cs ++ [seq app_of x.2 | x <- ts]
    & ss' = ss ++ [seq target_of x.1 | x <- ts] /\ ks' = omap (fun l => l ++ [seq cost x.2 | x <- ts]) ks].
  { case=> _ <- <- <- <-. exists [::]. split; rewrite ?cats0 //. split=> //. by case: ks => //= l; rewrite cats0. }
  elim=> [|m IH] go a ps cs ss ks a' ps' cs' ss' ks' /=; first exact: Z.
  case: go; last exact: Z.
  case E : (step _ _ _ _) => [[p' i']|x] // H. have [ts [H1 H2 H3 H4 [H5 H6]]] := IH _ _ _ _ _ _ _ _ _ _ _ H.
  exists ((p', i') :: ts). split=> /=; rewrite ?H3 ?H4 -?catA //. split; first by rewrite H5 -catA.
  by rewrite H6; case: ks {H H6} => //= l; rewrite -catA.
Qed.
Lemma run_trace (c : call Image Sh) a a' ps cs ss ks :
  app_run project target_of start step exceeds app_of cost c a = (a', Ok (ps, cs, ss, ks)) ->
  exists i0 ts, let tr := (project (c_shape c), i0) :: ts in
    [/\ start (c_image c) (project (c_shape c)) = Ok i0, chain (turn c) (project (c_shape c), i0) ts, (size ts <= c_max_iters c)%N,
    ps = [seq x.1 | x <- tr] /\ cs = [seq app_of x.2 | x <- tr]
    & ss = [seq target_of x.1 | x <- tr] /\ ks = (if c_costs c then Some [seq cost x.2 | x <- tr] else None)].
Proof.
  rewrite /app_run. case E : (start _ _) => [i0|x] // H. have [ts [H1 H2 H3 H4 [H5 H6]]] := loop_trace H.
  exists i0, ts. split=> //. split; first by rewrite H5. by rewrite H6; case: (c_costs c).
Qed.
Lemma run_states x0 (c : call Image Sh) a a' ps cs ss ks :
  app_run project target_of start step exceeds app_of cost c a = (a', Ok (ps, cs, ss, ks)) ->
  exists tr, [/\ (0 < size tr <= (c_max_iters c).+1)%N /\ (nth x0 tr 0).1 = project (c_shape c),
    start (c_image c) (nth x0 tr 0).1 = Ok (nth x0 tr 0).2,
    forall j, (j.+1 < size tr)%N -> step (c_image c) (c_map c) (nth x0 tr j).1 (nth x0 tr j).2 = Ok (nth x0 tr j.+1),
    ps = [seq x.1 | x <- tr] /\ cs = [seq app_of x.2 | x <- tr]
    & ss = [seq target_of x.1 | x <- tr] /\ ks = (if c_costs c then Some [seq cost x.2 | x <- tr] else None)].
Proof.
  move=> H. have [i0 [ts [H1 H2 H3 H4 H5]]] := run_trace H. exists ((project (c_shape c), i0) :: ts). split=> // j L.
  exact: (chain_nth x0 H2 L).
Qed.
Lemma states_inv x0 (c : call Image Sh) (I : P * Inner -> Prop) tr :
  (forall x y, I x -> step (c_image c) (c_map c) x.1 x.2 = Ok y -> I y) -> I (nth x0 tr 0) ->
  (forall j, (j.+1 < size tr)%N -> step (c_image c) (c_map c) (nth x0 tr j).1 (nth x0 tr j).2 = Ok (nth x0 tr j.+1)) ->
  forall j, (j < size tr)%N -> I (nth x0 tr j).
Proof. move=> S I0 H. elim=> [|j IH] L //. apply: S (H j L). apply: IH. exact: ltnW. Qed.
End Trace.

Section P.
Variable F : realFieldType.
Variables (k m n : nat) (Image Sh : Type).
Variable project : Sh -> 'cV[F]_n.
Variable target_of : 'cV[F]_n -> Sh.
Variable warp : Image -> 'cV[F]_n -> res 'cV[F]_k.
Variable exceeds : Sh -> Sh -> bool.
Variable A : 'M[F]_(k, m).
Variable P : 'M[F]_(m, k).
Variable a_bar : 'cV[F]_k.
Variable s2_inv_S : 'cV[F]_m.
Variable s2_inv_L : 'cV[F]_n.
Variable jac : Image -> 'cV[F]_n -> 'cV[F]_m -> res 'M[F]_(k, n).
Variable sign : bool.
Notation inner := (inner F k m).
Notation x0 := ((0, Inner 0 0 0 0 0) : 'cV[F]_n * inner).

Lemma plain_costE (x : 'cV[F]_k) : plain_cost x = sqn x. Proof. by rewrite /plain_cost sqnE. Qed.

(** Least squares weights. *)
Lemma P_A : penrose A P -> full_rank A -> P *m A = 1%:M.
Proof.
  case=> PA _ _ _ R. apply/matrixP => i j. have : P *m A *m delta_mx j (0 : 'I_1) = delta_mx j 0.
  { have H : A *m (P *m A *m delta_mx j (0 : 'I_1) - delta_mx j 0) = 0 by rewrite mulmxBr !mulmxA PA subrr.
    apply/eqP. rewrite -subr_eq0. apply/eqP. exact: R H. }
  move/(congr1 (fun M : 'cV[F]_m => M i 0)). rewrite [X in X = _ -> _]mxE (bigD1 j) //= big1 => [|l N]; last by rewrite [delta_mx _ _ _ _]mxE (negPf N) mulr0.
  by rewrite !mxE !eqxx mulr1 addr0 andbT.
Qed.
Lemma explainsE i c : penrose A P -> full_rank A -> explains A a_bar i c <-> c = P *m (i - a_bar).
Proof.
  move=> PA R. have M : explains A a_bar i (P *m (i - a_bar)).
  { rewrite /explains /mismatch. set x := i - a_bar.
    have E d : sqn (i - (a_bar + A *m d)) = sqn (project_out A P x) + sqn (A *m (P *m x - d)) by rewrite opprD addrA -/x (sqn_project PA).
    have Z : sqn (A *m (P *m x - P *m x)) = 0 by rewrite subrr mulmx0 /sqn big1 // => j _; rewrite mxE expr0n.
    split=> y; rewrite !E Z addr0; first by rewrite ler_addl sqn_ge0.
    rewrite ger_addl => L. apply/eqP; rewrite eq_sym -subr_eq0; apply/eqP; apply: R; apply: sqn_eq0; apply/eqP.
    by rewrite eq_le L sqn_ge0. }
  split=> [H|->] //. exact: minimum_unique H M.
Qed.
Lemma cost_least i : penrose A P -> full_rank A -> least_value (mismatch A a_bar i) (cost_of A P (i - a_bar)).
Proof.
  move=> PA R. have E d : mismatch A a_bar i d = cost_of A P (i - a_bar) + sqn (A *m (P *m (i - a_bar) - d)).
  { by rewrite /mismatch opprD addrA (sqn_project PA) cost_ofE. }
  split; last by move=> y; rewrite E ler_addl sqn_ge0.
  exists (P *m (i - a_bar)). by rewrite E subrr mulmx0 [sqn 0]big1 ?addr0 // => j _; rewrite mxE expr0n.
Qed.

(** Invariants of the states. *)
Definition sound img (x : 'cV[F]_n * inner) : Prop :=
  [/\ warp img x.1 = Ok (n_i x.2), n_a x.2 = instance_m A a_bar (n_c x.2) & n_e x.2 = n_i x.2 - n_a x.2].
Definition wsound img (x : 'cV[F]_n * inner) : Prop :=
  [/\ warp img x.1 = Ok (n_i x.2), n_a x.2 = instance_m A a_bar (n_c x.2) & n_e x.2 = n_i x.2 - a_bar].
Lemma start_sound img p i : start warp A P a_bar img p = Ok i -> sound img (p, i) /\ n_c i = P *m (n_i i - a_bar) /\ n_Jdp i = 0.
Proof. rewrite /start. case W : warp => [x|] //= [<-]. by split. Qed.
Lemma wiberg_start_sound img p i : wiberg_start warp A P a_bar img p = Ok i -> wsound img (p, i) /\ n_c i = P *m (n_i i - a_bar).
Proof. rewrite /wiberg_start. case W : warp => [x|] //= [<-]. by split. Qed.

Lemma update_increment (p dp : 'cV[F]_n) : increment sign p (update sign p dp) = dp.
Proof. rewrite /increment /update. case: sign; first by rewrite addrC addrA addNr add0r. by rewrite opprB addrC subrK. Qed.

Lemma shift (x i b j : 'cV[F]_k) : x + (i - (b + x) + j) = i + j - b.
Proof. by rewrite [b + x]addrC opprD !addrA [x + i]addrC addrK addrAC. Qed.
Lemma shift2 (i j b x y : 'cV[F]_k) : i + j - (b + (x + y)) = i - (b + x) - y + j.
Proof. by rewrite addrA [- (b + x + y)]opprD addrA [i + j - _]addrAC [LHS]addrAC. Qed.
Lemma modified_sound img mp x y : modified_turn warp A P a_bar s2_inv_L jac sign img mp x.1 x.2 = Ok y ->
  sound img y /\ n_c y.2 = P *m (n_i y.2 - a_bar).
Proof.
  rewrite /modified_turn. case: jac => [J|] //. rewrite [bind _ _]/=. case: modified_alternating_step => [dp|] //=.
  by case W : warp => [i|] //= [<-].
Qed.
Lemma wiberg_sound img mp x y : penrose A P -> full_rank A -> wsound img x -> wiberg_turn warp A P a_bar s2_inv_L jac sign img mp x.1 x.2 = Ok y ->
  wsound img y /\ exists2 J, jac img x.1 (n_c x.2) = Ok J & n_c y.2 = P *m (n_i y.2 + J *m increment sign x.1 y.1 - a_bar).
Proof.
  move=> PA R [S1 S2 S3]. rewrite /wiberg_turn. case: jac => [J|] //. rewrite [bind _ _]/=. case: project_out_step => [dp|] //=.
  case W : warp => [i|] //= [<-] /=. split=> //. exists J => //. rewrite update_increment S2 /instance_m.
  rewrite -[X in X + _](mul1mx (n_c x.2)) -(P_A PA R) -mulmxA -mulmxDr. congr (_ *m _).
  exact: shift.
Qed.

(** The simultaneous increment: the block of the normal equations that belongs to the appearance. *)
Lemma np_solve_unit q l (H : 'M[F]_q) (B : 'M[F]_(q, l)) x : np_solve H B = Ok x -> H \in unitmx.
Proof. by rewrite /np_solve; case: ifP. Qed.
Definition weight (mp : bool) : 'cV[F]_m := if mp then s2_inv_S else 0.
Lemma diag0 q : diag_mx (0 : 'cV[F]_q)^T = 0.
Proof. by rewrite trmx0; apply/matrixP => i j; rewrite !mxE mul0rn. Qed.
Lemma simultaneous_normal mp J e c p dc dp : simultaneous_step mp A J e s2_inv_S c s2_inv_L p = Ok (dc, dp) ->
  A^T *m (e - A *m dc + J *m dp) = diag_mx (weight mp)^T *m (c + dc).
Proof.
  have B (x : 'cV[F]_(m + n)) : usubmx ((row_mx (- A) J)^T *m e + (row_mx (- A) J)^T *m row_mx (- A) J *m x) = - (A^T *m (e - A *m usubmx x + J *m dsubmx x)).
  { rewrite -mulmxA -mulmxDr tr_row_mx mul_col_mx col_mxKu raddfN /= mulNmx. congr (- (_ *m _)).
    by rewrite -[in LHS](vsubmxK x) mul_row_col mulNmx addrA. }
  rewrite /simultaneous_step /weight. case: mp.
  - rewrite /solve_all_map. set H := _ + diag_mx _. case E : (np_solve H _) => [x|] //= Q.
    have [y [Ey Ny]] := solve_all_map_ok (row_mx (- A) J) e c p (np_solve_unit E).
    move: Ey. rewrite /solve_all_map -/H E /= Q => -[-> ->]. move/(congr1 usubmx): Ny. rewrite raddfD /= B.
    rewrite diag_colE [usubmx 0]linear0 => /eqP. rewrite addrC subr_eq0 => /eqP <-. rewrite diag_colE.
    apply/colP => i. rewrite [LHS]mxE [LHS]mxE addE !col_mxEu [RHS]mxE addE. by rewrite [usubmx y i 0]mxE.
  - rewrite /solve_all_ml. set H := _ *m _. case E : (np_solve H _) => [x|] //= Q.
    have [y [Ey Ny]] := solve_all_ml_ok (row_mx (- A) J) e (np_solve_unit E).
    move: Ey. rewrite /solve_all_ml -/H E /= Q => -[-> ->]. move/(congr1 usubmx): Ny. rewrite B diag0 mul0mx [usubmx 0]linear0 => /eqP.
    by rewrite oppr_eq0 => /eqP.
Qed.

Lemma explains_normal (w : 'cV[F]_m) (i : 'cV[F]_k) (c : 'cV[F]_m) : full_rank A -> (forall j, 0 <= w j 0) -> A^T *m (i - (a_bar + A *m c)) = diag_mx w^T *m c ->
  explains_with A a_bar i w c.
Proof.
  move=> R W N. have E y : sqn (i - (a_bar + A *m y)) = sqn (a_bar - i + A *m y).
  { rewrite -[in LHS](opprB (a_bar + _)) [a_bar + _ - i]addrAC /sqn. apply: eq_bigr => j _. by rewrite mxE sqrrN. }
  apply: (@minimum_eq _ _ (fun x => sqn (a_bar - i + A *m x) + wsqn w (0 + x))); first by move=> y; rewrite /mismatch E add0r.
  apply: minimum_of => //.
  - move=> h /eqP. rewrite paddr_eq0 ?sqn_ge0 ?wsqn_ge0 // => /andP [/eqP H1 _]. apply: R. exact: sqn_eq0.
  - rewrite add0r -N -mulmxDr. have -> : a_bar - i + A *m c + (i - (a_bar + A *m c)) = 0 by rewrite [a_bar - i + _]addrAC addrA subrK subrr.
    by rewrite mulmx0.
Qed.
Lemma simultaneous_sound img (mp : bool) x y : full_rank A -> (mp -> forall j, 0 <= s2_inv_S j 0) -> sound img x ->
  simultaneous_turn warp A a_bar s2_inv_S s2_inv_L jac sign img mp x.1 x.2 = Ok y ->
  sound img y /\ exists2 J, jac img x.1 (n_c x.2) = Ok J &
    explains_with A a_bar (n_i x.2 + J *m increment sign x.1 y.1) (weight mp) (n_c y.2).
Proof.
  move=> R W [S1 S2 S3]. have W' j : 0 <= weight mp j 0 by rewrite /weight; case: mp W => [W|_]; [exact: W|rewrite mxE].
  rewrite /simultaneous_turn. case: jac => [J|] //. rewrite [bind _ _]/=.
  case E : simultaneous_step => [[dc dp]|] //=. case Wp : warp => [i|] //= [<-] /=. split=> //. exists J => //.
  apply: explains_normal => //.
  rewrite update_increment -(simultaneous_normal E) S3 S2 /instance_m. congr (_ *m _).
  rewrite mulmxDr. exact: shift2.
Qed.
Lemma alternating_sound img x y : penrose A P -> full_rank A -> sound img x ->
  alternating_turn warp A P a_bar s2_inv_S s2_inv_L jac sign img false x.1 x.2 = Ok y ->
  [/\ sound img y, n_c y.2 = P *m (n_i x.2 + n_Jdp x.2 - a_bar)
    & exists2 J, jac img x.1 (n_c x.2) = Ok J & n_Jdp y.2 = J *m increment sign x.1 y.1].
Proof.
  move=> PA R [S1 S2 S3]. rewrite /alternating_turn /alternating_dc [bind _ _]/=. case: jac => [J|] //. rewrite /alternating_residual [bind _ _]/=.
  case: solve_shape_ml => [dp|] //. rewrite [bind _ _]/=.
  case Wp : warp => [i|] //= [<-] /=. split=> //; last by exists J => //; rewrite update_increment.
  rewrite S3 S2 /instance_m -[X in X + _](mul1mx (n_c x.2)) -(P_A PA R) -mulmxA -mulmxDr. congr (_ *m _). exact: shift.
Qed.
Lemma alternating_map img p s : k <> m -> alternating_turn warp A P a_bar s2_inv_S s2_inv_L jac sign img true p s = Err ValueError.
Proof. move=> N. rewrite /alternating_turn /alternating_dc. by case: eqP. Qed.
End P.

(** ** The forward algorithms side by side *)
Section Forward.
Variable F : realFieldType.
Variables (k m n : nat) (Image Sh : Type).
Variable project : Sh -> 'cV[F]_n.
Variable target_of : 'cV[F]_n -> Sh.
Variable warp : Image -> 'cV[F]_n -> res 'cV[F]_k.
Variable exceeds : Sh -> Sh -> bool.
Variable A : 'M[F]_(k, m).
Variable P : 'M[F]_(m, k).
Variable a_bar : 'cV[F]_k.
Variable s2_inv_S : 'cV[F]_m.
Variable s2_inv_L : 'cV[F]_n.
Variable jac_i : Image -> 'cV[F]_n -> res 'M[F]_(k, n).
Notation inner := (inner F k m).
Notation PA_ := (project_out A P).
Notation FC := (fc_solve s2_inv_L jac_i PA_).
Notation jac := (forward_jac (m:=m) jac_i).

Definition drop_appearance (r : res (seq 'cV[F]_n * seq 'cV[F]_m * seq Sh * option (seq F))) : res (seq 'cV[F]_n * seq Sh * option (seq F)) :=
  let? x := r in let '(ps, _, ss, ks) := x in Ok (ps, ss, ks).
Definition shapes_only (r : res (seq 'cV[F]_n * seq Sh * option (seq F))) : res (seq 'cV[F]_n * seq Sh) :=
  let? x := r in let '(ps, ss, _) := x in Ok (ps, ss).

Lemma wiberg_loop (c : call Image Sh) : forall q go (a : alg F k n) (g : app_alg 'cV[F]_n inner) ps cs ss ks, a_p a = g_p g -> a_e a = n_e (g_inner g) ->
  (loop target_of warp exceeds (cost_of A P) a_bar FC true q go c a ps ss ks).2 =
  drop_appearance (app_loop target_of (wiberg_turn warp A P a_bar s2_inv_L jac true) exceeds (@n_c F k m) (fun s => cost_of A P (n_e s)) q go c g ps cs ss ks).2.
Proof.
  elim=> [|q IH] go a g ps cs ss ks Ep Ee //=. case: go => //. rewrite /wiberg_turn /fc_solve /forward_jac Ep Ee /project_out_step.
  case: jac_i => [J|x] //. rewrite [bind (Ok J) _]/=.
  set r := (if c_map c then _ else _). case: r => [dp|x] //. rewrite [bind (Ok dp) _]/=.
  case: warp => [i|x] //. rewrite [bind (Ok i) _]/=. exact: IH.
Qed.
Lemma wiberg_forward (c : call Image Sh) (a : alg F k n) g :
  (fc_run project target_of warp exceeds (cost_of A P) a_bar s2_inv_L jac_i PA_ c a).2 =
  drop_appearance (wiberg_run project target_of warp exceeds A P a_bar s2_inv_L jac true c g).2.
Proof.
  rewrite /fc_run /run /wiberg_run /app_run /wiberg_start. case: warp => [i|x] //=. exact: wiberg_loop.
Qed.

Lemma unit_full q l (J : 'M[F]_(q, l)) : J^T *m J \in unitmx -> full_rank J.
Proof. move=> U x E. by rewrite -(mulKmx U x) -[J^T *m J *m x]mulmxA E !mulmx0. Qed.
Lemma joint_full q (J : 'M[F]_(k, q)) : penrose A P -> full_rank A -> full_rank (PA_ J) -> full_rank (row_mx (- A) J).
Proof.
  move=> PA R RJ x. rewrite -[x]vsubmxK mul_row_col mulNmx => E.
  have Ed : dsubmx x = 0.
  { apply: RJ. have := congr1 (fun v => (1%:M - A *m P) *m v) E. by rewrite mulmxDr mulmxN mulmxA Q_A // mul0mx oppr0 add0r mulmx0 mulmxA project_outE. }
  move: E. rewrite Ed mulmx0 addr0 => /eqP. rewrite oppr_eq0 => /eqP /R ->. by rewrite col_mx0.
Qed.
Lemma joint_unit (J : 'M[F]_(k, n)) : penrose A P -> full_rank A ->
  ((row_mx (- A) J)^T *m row_mx (- A) J \in unitmx) = ((PA_ J)^T *m J \in unitmx).
Proof.
  move=> PA R. rewrite (QJ_gram PA). apply/idP/idP => U.
  - apply: gram_unit. apply: QJ_full; exact: unit_full U.
  - apply: gram_unit. apply: joint_full => //. exact: unit_full U.
Qed.
Lemma simultaneous_lower J e c p dc dp : simultaneous_step false A J e s2_inv_S c s2_inv_L p = Ok (dc, dp) ->
  J^T *m (e - A *m dc + J *m dp) = 0.
Proof.
  rewrite /simultaneous_step /solve_all_ml. set H := _ *m _. case E : (np_solve H _) => [x|] //= Q.
  have [y [Ey Ny]] := solve_all_ml_ok (row_mx (- A) J) e (np_solve_unit E).
  move: Ey. rewrite /solve_all_ml -/H E /= Q => -[-> ->]. move/(congr1 dsubmx): Ny. rewrite [dsubmx 0]linear0 => <-.
  rewrite -mulmxA -mulmxDr tr_row_mx mul_col_mx col_mxKd. congr (_ *m _). by rewrite -[in RHS](vsubmxK y) mul_row_col mulNmx addrA.
Qed.
Lemma simultaneous_project_out J e c0 c p : penrose A P -> full_rank A ->
  (let? d := simultaneous_step false A J (e - A *m c0) s2_inv_S c s2_inv_L p in Ok d.2) = project_out_step false A P J e s2_inv_L p.
Proof.
  move=> PA R. have JU := joint_unit J PA R. case E : simultaneous_step => [[dc dp]|x] /=.
  - have N1 := simultaneous_normal E. have N2 := simultaneous_lower E. move: N1. rewrite /weight diag0 mul0mx => N1.
    have U : (PA_ J)^T *m J \in unitmx.
    { move: E. rewrite -JU /simultaneous_step /solve_all_ml. case E : (np_solve _ _) => [y|] // _. exact: np_solve_unit E. }
    rewrite /project_out_step /solve_shape_ml /np_solve U /=. congr (Ok _).
    have H : (PA_ J)^T *m (e + J *m dp) = 0.
    { rewrite (QJ_e PA). have -> : PA_ (e + J *m dp) = e - A *m c0 - A *m dc + J *m dp.
      { rewrite -[RHS](_ : PA_ (e - A *m c0 - A *m dc + J *m dp) = _); last by rewrite /project_out (P_orth PA N1) mulmx0 subr0.
        rewrite !project_outE !mulmxDr !mulmxN !mulmxA Q_A // !mul0mx !subr0. by []. }
      rewrite project_outE trmx_mul Q_sym // -mulmxA. set r := _ + J *m dp in N1 N2 *.
      by rewrite mulmxBl mul1mx -mulmxA (P_orth PA N1) mulmx0 subr0. }
    apply/eqP. rewrite -addr_eq0 addrC. apply/eqP. rewrite -(mulKmx U dp) -mulmxDr -mulmxA. rewrite mulmxDr in H.
    by rewrite H mulmx0.
  - move: E. rewrite /simultaneous_step /solve_all_ml /project_out_step /solve_shape_ml /np_solve JU. by case: ifP => //= _ [<-].
Qed.

Lemma simultaneous_loop (c : call Image Sh) : penrose A P -> full_rank A -> c_map c = false ->
  forall q go (a : alg F k n) (g : app_alg 'cV[F]_n inner) ps cs ss ks ks' i, a_p a = g_p g -> a_e a = i - a_bar ->
  n_e (g_inner g) = i - instance_m A a_bar (n_c (g_inner g)) ->
  shapes_only (loop target_of warp exceeds (cost_of A P) a_bar FC true q go c a ps ss ks).2 =
  shapes_only (drop_appearance (app_loop target_of (simultaneous_turn warp A a_bar s2_inv_S s2_inv_L jac true) exceeds (@n_c F k m) (fun s => plain_cost (n_e s)) q go c g ps cs ss ks').2).
Proof.
  move=> PA R M. set T := simultaneous_turn _ _ _ _ _ _ _. elim=> [|q IH] go a g ps cs ss ks ks' i Ep Ee Eg //. cbn [loop app_loop]. case: go => //.
  have E : T (c_image c) (c_map c) (g_p g) (g_inner g) = simultaneous_turn warp A a_bar s2_inv_S s2_inv_L jac true (c_image c) (c_map c) (g_p g) (g_inner g) by [].
  rewrite {}E M /simultaneous_turn /fc_solve /forward_jac Ep Ee Eg.
  case: jac_i => [J|x] //. cbn [bind].
  have := simultaneous_project_out J (i - a_bar) (n_c (g_inner g)) (n_c (g_inner g)) (g_p g) PA R.
  rewrite /instance_m opprD addrA /project_out_step => <-.
  case: simultaneous_step => [[dc dp]|x] //. cbn [bind snd a_p].
  case: warp => [i'|x] //. cbn [bind]. apply: (IH _ _ _ _ _ _ _ _ i') => //.
Qed.
Lemma simultaneous_forward (c : call Image Sh) (a : alg F k n) g : penrose A P -> full_rank A -> c_map c = false ->
  shapes_only (fc_run project target_of warp exceeds (cost_of A P) a_bar s2_inv_L jac_i PA_ c a).2 =
  shapes_only (drop_appearance (simultaneous_run project target_of warp exceeds A P a_bar s2_inv_S s2_inv_L jac true c g).2).
Proof.
  move=> PA R M. rewrite /fc_run /run /simultaneous_run /app_run /start. case: warp => [i|x] //=. exact: (@simultaneous_loop c PA R M _ _ _ _ _ _ _ _ _ i).
Qed.
End Forward.

(** ** Failures *)
Lemma run_fails P Image Sh Inner C Cost (project : Sh -> P) target_of (start : Image -> P -> res Inner) (step : Image -> bool -> P -> Inner -> res (P * Inner))
    exceeds (app_of : Inner -> C) (cost : Inner -> Cost) (c : call Image Sh) a x :
  (app_run project target_of start step exceeds app_of cost c a).2 = Err x ->
  start (c_image c) (project (c_shape c)) = Err x \/ exists p s, step (c_image c) (c_map c) p s = Err x.
Proof.
  rewrite /app_run. case E : (start _ _) => [i0|y] /=; last by move=> [<-]; left.
  move=> H; right. move: H. move: (c_max_iters c) true (AppAlg _ _) [:: _] [:: _] [:: _] (if c_costs c then _ else _).
  elim=> [|q IH] go g ps cs ss ks //=. case: go => //. case E1 : (step _ _ _ _) => [[p' i']|y]; first exact: IH.
  by move=> [<-]; exists (g_p g), (g_inner g).
Qed.

Section Fails.
Variable F : realFieldType.
Variables (k m n : nat) (Image Sh : Type).
Variable warp : Image -> 'cV[F]_n -> res 'cV[F]_k.
Variable A : 'M[F]_(k, m).
Variable P : 'M[F]_(m, k).
Variable a_bar : 'cV[F]_k.
Variable s2_inv_S : 'cV[F]_m.
Variable s2_inv_L : 'cV[F]_n.
Variable jac : Image -> 'cV[F]_n -> 'cV[F]_m -> res 'M[F]_(k, n).
Variable sign : bool.
Definition outside (img : Image) (x : exn) : Prop := (exists p, warp img p = Err x) \/ (exists p c, jac img p c = Err x).
Hypothesis posL : forall i, 0 < s2_inv_L i 0.

Lemma start_fails img p x : start warp A P a_bar img p = Err x -> outside img x.
Proof. rewrite /start. case E : warp => [i|y] //= [<-]. by left; exists p. Qed.
Lemma wiberg_start_fails img p x : wiberg_start warp A P a_bar img p = Err x -> outside img x.
Proof. rewrite /wiberg_start. case E : warp => [i|y] //= [<-]. by left; exists p. Qed.
Lemma modified_fails img p s x : modified_turn warp A P a_bar s2_inv_L jac sign img true p s = Err x -> outside img x.
Proof.
  rewrite /modified_turn. case E : jac => [J|y]; last by move=> [<-]; right; exists p, (n_c s). cbn [bind].
  rewrite /modified_alternating_step. have [dp -> _] := solve_shape_map_ok J (n_e s) p (prior_unit_pos J posL). cbn [bind].
  case W : warp => [i|y] //= [<-]. by left; exists (update sign p dp).
Qed.
Lemma wiberg_fails img p s x : penrose A P -> wiberg_turn warp A P a_bar s2_inv_L jac sign img true p s = Err x -> outside img x.
Proof.
  move=> PA. rewrite /wiberg_turn. case E : jac => [J|y]; last by move=> [<-]; right; exists p, (n_c s). cbn [bind].
  rewrite /project_out_step. have U : (project_out A P J)^T *m J + diag_mx s2_inv_L^T \in unitmx by rewrite (QJ_gram PA) prior_unit_pos.
  have [dp -> _] := solve_shape_map_ok (project_out A P J) (n_e s) p U. cbn [bind].
  case W : warp => [i|y] //= [<-]. by left; exists (update sign p dp).
Qed.
Lemma simultaneous_fails img p s x : (forall i, 0 < s2_inv_S i 0) ->
  simultaneous_turn warp A a_bar s2_inv_S s2_inv_L jac sign img true p s = Err x -> outside img x.
Proof.
  move=> posS. rewrite /simultaneous_turn. case E : jac => [J|y]; last by move=> [<-]; right; exists p, (n_c s). cbn [bind].
  rewrite /simultaneous_step. have pos i : 0 < (col_mx s2_inv_S s2_inv_L) i 0 by rewrite mxE; case: split.
  have [d [-> _]] := solve_all_map_ok (row_mx (- A) J) (n_e s) (n_c s) p (prior_unit_pos (row_mx (- A) J) pos). cbn [bind].
  case W : warp => [i|y] //= [<-]. by left; exists (update sign p (dsubmx d)).
Qed.
End Fails.
