(** C92 A fit that starts where the model explains the image stays there. *)
From Verif.Model Require Import Py LinAlg History AamRuns.
From Verif.Spec Require Import LinAlg AamRuns Stays.
From Verif.Proofs Require Import LinAlg AamRuns AamRunsExample Stays.
From mathcomp Require Import all_ssreflect all_algebra.
Set Implicit Arguments.
Unset Strict Implicit.
Unset Printing Implicit Defensive.
Import Order.TTheory GRing.Theory Num.Theory.
Local Open Scope ring_scope.

Section C92.
Variable F : realFieldType.
Variables (k m n : nat) (Image Sh : Type).
Variable project : Sh -> 'cV[F]_n.
Variable target_of : 'cV[F]_n -> Sh.
Variable warp : Image -> 'cV[F]_n -> res 'cV[F]_k.
Variable exceeds : Sh -> Sh -> bool.
Variable A : 'M[F]_(k, m).
Variable P : 'M[F]_(m, k).
Variable a_bar : 'cV[F]_k.
Variable s2_inv_S : 'cV[F]_m.
Variable s2_inv_L : 'cV[F]_n.
Variable jac : Image -> 'cV[F]_n -> 'cV[F]_m -> res 'M[F]_(k, n).
Variable sign : bool.
Notation inner := (inner F k m).
Notation app_alg := (app_alg 'cV[F]_n inner).
(** The shape parameters and the shape at the start, and whether that is as close to itself as the convergence test asks. *)
Notation p_of c := (project (c_shape c)).
Notation s_of c := (target_of (p_of c)).
Notation at_rest c := (~~ exceeds (s_of c) (s_of c)).

Lemma start_exact (c : call Image Sh) x i : penrose A P -> warp (c_image c) (p_of c) = Ok i -> i = a_bar + A *m x ->
  start warp A P a_bar (c_image c) (p_of c) = Ok (Inner i (P *m (A *m x)) i 0 0).
Proof.
  move=> [E _ _ _] W Ei. rewrite /start W; cbn [bind]. rewrite /appearance_weights /instance_m.
  have -> : i - a_bar = A *m x by rewrite Ei addrC addrA addNr add0r.
  have -> : A *m (P *m (A *m x)) = A *m x by rewrite !mulmxA E. by rewrite -Ei subrr.
Qed.
Lemma params_of x i : penrose A P -> full_rank A -> i = a_bar + A *m x -> P *m (A *m x) = x.
Proof. move=> PA R _. by rewrite mulmxA (P_A PA R) mul1mx. Qed.
Lemma fix_inner i x : penrose A P -> i = a_bar + A *m x -> instance_m A a_bar (P *m (A *m x)) = i.
Proof. move=> [E _ _ _] ->. by rewrite /instance_m !mulmxA E. Qed.

(** The algorithms with appearance parameters, forward and inverse, without map_inference: if the image warped with the
    initial parameters is an instance of the appearance model, every reported shape, vector of shape parameters and vector of
    appearance parameters is the initial one, and every cost is zero. *)
Theorem c92_appearance : penrose A P -> full_rank A -> forall (c : call Image Sh) i x, c_map c = false ->
  warp (c_image c) (p_of c) = Ok i -> i = a_bar + A *m x -> forall (a a' : app_alg) ps cs ss ks,
  simultaneous_run project target_of warp exceeds A P a_bar s2_inv_S s2_inv_L jac sign c a = (a', Ok (ps, cs, ss, ks)) \/
  alternating_run project target_of warp exceeds A P a_bar s2_inv_S s2_inv_L jac sign c a = (a', Ok (ps, cs, ss, ks)) \/
  modified_run project target_of warp exceeds A P a_bar s2_inv_L jac sign c a = (a', Ok (ps, cs, ss, ks)) \/
  wiberg_run project target_of warp exceeds A P a_bar s2_inv_L jac sign c a = (a', Ok (ps, cs, ss, ks)) ->
  stays (c_max_iters c) (at_rest c) (p_of c) x (s_of c) (c_costs c) ps cs ss ks.
Proof.
  move=> PA R c i x M W Ei a a' ps cs ss ks. have S := start_exact PA W Ei. have X := params_of PA R Ei. rewrite X in S.
  have N : instance_m A a_bar x = i by rewrite /instance_m -Ei.
  have PC : plain_cost (0 : 'cV[F]_k) = 0 by rewrite /plain_cost mulmx0 mxE.
  case=> [H|[H|[H|H]]].
  - apply: (app_run_stays S _ _ H); last exact: PC. move=> y. rewrite M /simultaneous_turn. case: jac => //= J.
    rewrite /simultaneous_step /solve_all_ml /np_solve mulmx0 mulmx0. case: ifP => //= _.
    rewrite oppr0 !raddf0 addr0 update0 W; cbn [bind]. by rewrite N subrr => -[<-].
  - apply: (app_run_stays S _ _ H); last exact: PC. move=> y. rewrite M /alternating_turn /alternating_dc; cbn [bind n_c n_e n_Jdp n_i].
    rewrite addr0 mulmx0. case: jac => //= J. rewrite mulmx0 subrr.
    case E : solve_shape_ml => [dp|//]; cbn [bind]. rewrite (solve_ml0 _ E) ?mulmx0 // update0 W; cbn [bind].
    by rewrite addr0 N subrr => -[<-].
  - apply: (app_run_stays S _ _ H); last exact: PC. move=> y. rewrite M /modified_turn. case: jac => //= J.
    case E : solve_shape_ml => [dp|//]; cbn [bind]. rewrite (solve_ml0 _ E) ?mulmx0 // update0 W; cbn [bind].
    have -> : appearance_weights P i a_bar = x by rewrite /appearance_weights Ei addrC addrA addNr add0r X.
    by rewrite N subrr => -[<-].
  - have S' : wiberg_start warp A P a_bar (c_image c) (p_of c) = Ok (Inner i x i (A *m x) 0).
    { rewrite /wiberg_start W; cbn [bind]. have -> : i - a_bar = A *m x by rewrite Ei addrC addrA addNr add0r.
      have -> : appearance_weights P i a_bar = x by rewrite /appearance_weights Ei addrC addrA addNr add0r X. by rewrite N. }
    apply: (app_run_stays S' _ _ H); last exact: out_cost PA x. move=> y. rewrite M /wiberg_turn. case: jac => //= J.
    rewrite /project_out_step. case E : solve_shape_ml => [dp|//]; cbn [bind]. 
    have Z : dp = 0 by apply: (solve_ml0 _ E); exact: (out_T PA). rewrite Z.
    rewrite update0 W; cbn [bind]. rewrite mulmx0 addr0 subrr mulmx0 addr0 N.
    have -> : i - a_bar = A *m x by rewrite Ei addrC addrA addNr add0r. by move=> [<-].
Qed.

(** Project-out, forward and inverse. *)
Variable jac_i : Image -> 'cV[F]_n -> res 'M[F]_(k, n).
Theorem c92_project_out_forward : penrose A P -> forall (c : call Image Sh) i, c_map c = false ->
  warp (c_image c) (p_of c) = Ok i -> an_instance A a_bar i -> forall a a' ps ss ks,
  fc_run project target_of warp exceeds (cost_of A P) a_bar s2_inv_L jac_i (project_out A P) c a = (a', Ok (ps, ss, ks)) ->
  stays (c_max_iters c) (at_rest c) (p_of c) tt (s_of c) (c_costs c) ps (nseq (size ps) tt) ss ks.
Proof.
  move=> PA c i M W [x Ei] a a' ps ss ks H. have D : i - a_bar = A *m x by rewrite Ei addrC addrA addNr add0r.
  apply: (run_stays W _ _ H); last by rewrite D; exact: out_cost PA x.
  move=> b P1 E1 a1 dp. rewrite M /fc_solve => -[<-]. case: jac_i => // J E. split=> //. apply: (solve_ml0 _ E). rewrite E1 D. exact: (out_T PA).
Qed.
Theorem c92_project_out_inverse : penrose A P -> forall (J : 'M[F]_(k, n)) pinv_QJ,
  np_solve ((project_out A P J)^T *m J) (project_out A P J)^T = Ok pinv_QJ -> forall (c : call Image Sh) i, c_map c = false ->
  warp (c_image c) (p_of c) = Ok i -> an_instance A a_bar i -> forall a a' ps ss ks,
  ic_run project target_of warp exceeds (cost_of A P) a_bar (project_out A P J) pinv_QJ s2_inv_L c a = (a', Ok (ps, ss, ks)) ->
  stays (c_max_iters c) (at_rest c) (p_of c) tt (s_of c) (c_costs c) ps (nseq (size ps) tt) ss ks.
Proof.
  move=> PA J Q. rewrite /np_solve. case: ifP => // _ [<-] c i M W [x Ei] a a' ps ss ks H.
  have D : i - a_bar = A *m x by rewrite Ei addrC addrA addNr add0r.
  apply: (run_stays W _ _ H); last by rewrite D; exact: out_cost PA x.
  move=> b P1 E1 a1 dp. rewrite M /ic_solve => -[<- <-]. split=> //. by rewrite E1 D -mulmxA (out_T PA) mulmx0 oppr0.
Qed.

(** The active template models, forward and inverse, whose only instance is the template (atm/algorithm.py 323-336 and
    354-370: nothing is projected out, the cost is the squared error). *)
Theorem c92_template_forward : forall (c : call Image Sh), c_map c = false -> warp (c_image c) (p_of c) = Ok a_bar -> forall a a' ps ss ks,
  fc_run project target_of warp exceeds (@plain_cost F k) a_bar s2_inv_L jac_i id c a = (a', Ok (ps, ss, ks)) ->
  stays (c_max_iters c) (at_rest c) (p_of c) tt (s_of c) (c_costs c) ps (nseq (size ps) tt) ss ks.
Proof.
  move=> c M W a a' ps ss ks H. apply: (run_stays W _ _ H); last by rewrite subrr /plain_cost mulmx0 mxE.
  move=> b P1 E1 a1 dp. rewrite M /fc_solve => -[<-]. case: jac_i => // J E. split=> //. apply: (solve_ml0 _ E). by rewrite E1 subrr mulmx0.
Qed.
Theorem c92_template_inverse : forall (J : 'M[F]_(k, n)) pinv_J (c : call Image Sh), c_map c = false -> warp (c_image c) (p_of c) = Ok a_bar -> forall a a' ps ss ks,
  ic_run project target_of warp exceeds (@plain_cost F k) a_bar J pinv_J s2_inv_L c a = (a', Ok (ps, ss, ks)) ->
  stays (c_max_iters c) (at_rest c) (p_of c) tt (s_of c) (c_costs c) ps (nseq (size ps) tt) ss ks.
Proof.
  move=> J Q c M W a a' ps ss ks H. apply: (run_stays W _ _ H); last by rewrite subrr /plain_cost mulmx0 mxE.
  move=> b P1 E1 a1 dp. rewrite M /ic_solve => -[<- <-]. split=> //. by rewrite E1 subrr mulmx0 oppr0.
Qed.

(** *** With map_inference *)

(** With the prior (whose weights are positive: c75_priors) an image that the model explains exactly is left at the first
    iteration, unless the initial parameters, similarity included, are all zero: every algorithm that gets that far. *)
Theorem c92_map_refuted : penrose A P -> full_rank A -> (forall j, 0 < s2_inv_L j 0) -> forall (c : call Image Sh) i x, c_map c ->
  (0 < c_max_iters c)%N -> warp (c_image c) (p_of c) = Ok i -> i = a_bar + A *m x -> p_of c != 0 -> forall (J : 'M[F]_(k, n)) pinv_QJ ps ss ks,
  (exists a a', fc_run project target_of warp exceeds (cost_of A P) a_bar s2_inv_L jac_i (project_out A P) c a = (a', Ok (ps, ss, ks))) \/
  (exists a a', ic_run project target_of warp exceeds (cost_of A P) a_bar (project_out A P J) pinv_QJ s2_inv_L c a = (a', Ok (ps, ss, ks))) \/
  (exists a a' cs, modified_run project target_of warp exceeds A P a_bar s2_inv_L jac sign c a = (a', Ok (ps, cs, ss, ks))) \/
  (exists a a' cs, wiberg_run project target_of warp exceeds A P a_bar s2_inv_L jac sign c a = (a', Ok (ps, cs, ss, ks))) ->
  exists p' t, ps = p_of c :: p' :: t /\ p' <> p_of c.
Proof.
  move=> PA R pos c i x M L W Ei /eqP N J Q ps ss ks. have D : i - a_bar = A *m x by rewrite Ei addrC addrA addNr add0r.
  have X := params_of PA R Ei. have NN : instance_m A a_bar x = i by rewrite /instance_m -Ei.
  case=> [[a [a' H]]|[[a [a' H]]|[[a [a' [cs H]]]|[a [a' [cs H]]]]]].
  - have [a1 [dp [t [E ->]]]] := run_first L W H. do 2!eexists. split; first by []. move: E. rewrite M /fc_solve.
    case E : jac_i => [K|//] [<-] /= G /(@update_fix _ _ true) Z. apply: N. apply: (map_still pos _ G Z). rewrite D. exact: (out_T PA).
  - have [a1 [dp [t [E ->]]]] := run_first L W H. do 2!eexists. split; first by []. move: E. rewrite M /ic_solve.
    case E : solve_shape_map => [H' r] /= [<- G] /= /(@update_fix _ _ false) Z. apply: N. apply: (map_still (H := a_H a) (J := project_out A P J) (e := i - a_bar) pos _ _ Z).
    + rewrite D. exact: (out_T PA).
    + by rewrite E.
  - have S := start_exact PA W Ei. rewrite X in S. move: H. rewrite /modified_run /app_run S. case: (c_max_iters c) L => // q _ /=.
    rewrite M /modified_turn. case: jac => [K|//]; cbn [bind]. case E : modified_alternating_step => [dp|//]; cbn [bind]. case: warp => [i'|//]; cbn [bind].
    move=> H. have [ts [_ _ -> _ _]] := loop_trace H. do 2!eexists. split; first by []. move/update_fix => Z. apply: N. apply: (map_still pos _ E Z). by rewrite mulmx0.
  - have S' : wiberg_start warp A P a_bar (c_image c) (p_of c) = Ok (Inner i x i (A *m x) 0).
    { rewrite /wiberg_start W; cbn [bind]. rewrite D.
      have -> : appearance_weights P i a_bar = x by rewrite /appearance_weights D X. by rewrite NN. }
    move: H. rewrite /wiberg_run /app_run S'. case: (c_max_iters c) L => // q _ /=.
    rewrite M /wiberg_turn. case: jac => [K|//]; cbn [bind]. case E : project_out_step => [dp|//]; cbn [bind]. case: warp => [i'|//]; cbn [bind].
    move=> H. have [ts [_ _ -> _ _]] := loop_trace H. do 2!eexists. split; first by []. move/update_fix => Z. apply: N. apply: (map_still pos _ E Z). exact: (out_T PA).
Qed.
End C92.
Print Assumptions c92_appearance.
Print Assumptions c92_project_out_forward.
Print Assumptions c92_project_out_inverse.
Print Assumptions c92_template_forward.
Print Assumptions c92_template_inverse.
Print Assumptions c92_map_refuted.

(** Cases that meet the hypotheses: two pixels, one component that lights the first, the mean lights the second.  The image
    lights both with the shape parameter 1, so that it is the instance with appearance parameter 1; the modified alternating
    algorithm may make five iterations and makes one. *)
Section Example.
Variable F : realFieldType.
Definition still : call unit 'cV[F]_1 := Call tt 1%:M 5 true false.
Definition pulled : call unit 'cV[F]_1 := Call tt 1%:M 5 true true.
Example c92_example_instance : @warp1 F tt 1%:M = Ok (px 1 1) /\ px 1 1 = px 0 1 + A1 F *m 1%:M.
Proof. by rewrite A1_mul pxD add0r addr0. Qed.
Example c92_example : exists a' ps cs ss ks,
  [/\ penrose (A1 F) (P1 F), full_rank (A1 F),
      modified_run (fun s : 'cV[F]_1 => s) (fun p => p) (@warp1 F) (fun s s' => s != s') (A1 F) (P1 F) (px 0 1) 0 (@jac1 F) true still (alg0 F) =
        (a', Ok (ps, cs, ss, ks)) & size ps = 2%N].
Proof.
  have S : start (@warp1 F) (A1 F) (P1 F) (px 0 1) tt 1%:M = Ok (Inner (px 1 1) 1%:M (px 1 1) 0 0).
  { have [W E] := c92_example_instance. rewrite (start_exact (c := Call tt 1%:M 5 true false) (project := fun s => s) (penrose1 F) W E).
    by rewrite A1_mul P1_px. }
  rewrite /modified_run /app_run [start _ _ _ _ _ _]S /= /modified_turn /jac1. cbn [bind n_e]. rewrite /modified_alternating_step /solve_shape_ml.
  rewrite -[J1 F]/(px 1 1) px_dot !mulr1 mulmx0 /np_solve unit1 -[1 + 1]/(2%:R) pnatr_eq0 /= mulmx0 oppr0 addr0. cbn [bind]. rewrite eqxx /=.
  do 5!eexists. split; [exact: penrose1|exact: full1|by []|by []].
Qed.
(** With the prior, the same image is left. *)
Example c92_example_map : (forall j, 0 < (1%:M : 'cV[F]_1) j 0) /\ c_shape pulled != 0.
Proof. split=> [j|]; first by rewrite mxE (ord1 j) ltr01. apply/eqP => /colP /(_ 0). rewrite !mxE /= => /eqP. by rewrite oner_eq0. Qed.
End Example.
