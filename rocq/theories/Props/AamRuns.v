(** C73 The appearance parameters that a fit reports, C74 Forward algorithms that produce the same shapes, C75 Fits with
    map_inference. *)
From Verif.Model Require Import Py LinAlg History AamRuns.
From Verif.Spec Require Import LinAlg AamRuns.
From Verif.Proofs Require Import LinAlg AamRuns AamRunsExample.
From mathcomp Require Import all_ssreflect all_algebra.
Set Implicit Arguments.
Unset Strict Implicit.
Unset Printing Implicit Defensive.
Import Order.TTheory GRing.Theory Num.Theory.
Local Open Scope ring_scope.

Section C73.
Variable F : realFieldType.
Variables (k m n : nat) (Image Sh : Type).
Variable project : Sh -> 'cV[F]_n.
Variable target_of : 'cV[F]_n -> Sh.
Variable warp : Image -> 'cV[F]_n -> res 'cV[F]_k.
Variable exceeds : Sh -> Sh -> bool.
Variable A : 'M[F]_(k, m).
Variable P : 'M[F]_(m, k).
Variable a_bar : 'cV[F]_k.
Variable s2_inv_S : 'cV[F]_m.
Variable s2_inv_L : 'cV[F]_n.
Variable jac : Image -> 'cV[F]_n -> 'cV[F]_m -> res 'M[F]_(k, n).
Variable sign : bool.
Notation inner := (inner F k m).
Notation x0 := ((0, Inner 0 0 0 0 0) : 'cV[F]_n * inner).

(** Modified alternating, forward and inverse, with and without map_inference: every reported vector of appearance parameters
    explains the image warped with the shape parameters reported beside it, and the cost is what they leave unexplained. *)
Theorem c73_modified_alternating : penrose A P -> full_rank A -> forall c a a' ps cs ss ks,
  modified_run project target_of warp exceeds A P a_bar s2_inv_L jac sign c a = (a', Ok (ps, cs, ss, ks)) ->
  size cs = size ps /\ forall j, (j < size ps)%N -> exists2 i, warp (c_image c) (nth 0 ps j) = Ok i &
    explains A a_bar i (nth 0 cs j) /\ (forall l, ks = Some l -> nth 0 l j = mismatch A a_bar i (nth 0 cs j)).
Proof.
  move=> PA R c a a' ps cs ss ks H. have [tr [_ H1 H2 [-> ->] [_ ->]]] := run_states x0 H. split; first by rewrite !size_map.
  have I : forall j, (j < size tr)%N -> sound warp A a_bar (c_image c) (nth x0 tr j) /\ n_c (nth x0 tr j).2 = P *m (n_i (nth x0 tr j).2 - a_bar).
  { apply: (states_inv (I := fun x => sound warp A a_bar (c_image c) x /\ n_c x.2 = P *m (n_i x.2 - a_bar)) _ _ H2).
    - move=> x y _. exact: modified_sound.
    - have [S [C _]] := start_sound H1. by case: (nth x0 tr 0) S C. }
  move=> j. rewrite size_map => L. have [[S1 S2 S3] C] := I j L. exists (n_i (nth x0 tr j).2); first by rewrite (nth_map x0).
  rewrite (nth_map x0) //. split; first by apply/(explainsE _ _ _ PA R).
  move=> l. case: (c_costs c) => // -[<-]. by rewrite (nth_map x0) // plain_costE S3 S2.
Qed.

(** Wiberg, forward and inverse, with and without map_inference: the first appearance parameters explain the image; the later
    ones explain the image at the new shape plus once more the change that the increment was predicted to bring about.  The
    cost is the least mismatch of any appearance parameters with the image. *)
Theorem c73_wiberg_partial : penrose A P -> full_rank A -> forall c a a' ps cs ss ks,
  wiberg_run project target_of warp exceeds A P a_bar s2_inv_L jac sign c a = (a', Ok (ps, cs, ss, ks)) ->
  [/\ size cs = size ps,
      exists2 i, warp (c_image c) (nth 0 ps 0) = Ok i & explains A a_bar i (nth 0 cs 0),
      forall j, (j.+1 < size ps)%N -> exists i J, [/\ warp (c_image c) (nth 0 ps j.+1) = Ok i, jac (c_image c) (nth 0 ps j) (nth 0 cs j) = Ok J
        & explains A a_bar (i + J *m increment sign (nth 0 ps j) (nth 0 ps j.+1)) (nth 0 cs j.+1)]
    & forall j l, (j < size ps)%N -> ks = Some l -> exists2 i, warp (c_image c) (nth 0 ps j) = Ok i & least_value (mismatch A a_bar i) (nth 0 l j)].
Proof.
  move=> PA R c a a' ps cs ss ks H. have [tr [[/andP [Z _] _] H1 H2 [-> ->] [_ ->]]] := run_states x0 H.
  have [S C] := wiberg_start_sound H1.
  have I : forall j, (j < size tr)%N -> wsound warp A a_bar (c_image c) (nth x0 tr j).
  { apply: (states_inv (I := wsound warp A a_bar (c_image c)) _ _ H2); last by case: (nth x0 tr 0) S.
    move=> x y Hx Hy. by have [] := wiberg_sound PA R Hx Hy. }
  split; first by rewrite !size_map.
  - case: S => S1 S2 S3. exists (n_i (nth x0 tr 0).2); rewrite (nth_map x0) //. by apply/(explainsE _ _ _ PA R).
  - move=> j. rewrite size_map => L. have [[S1 _ _] [J Ej Ec]] := wiberg_sound PA R (I j (ltnW L)) (H2 j L).
    exists (n_i (nth x0 tr j.+1).2), J. rewrite !(nth_map x0) // ?(ltnW L) //. split=> //. by apply/(explainsE _ _ _ PA R).
  - move=> j l. rewrite size_map => L. case: (c_costs c) => // -[<-]. have [S1 _ S3] := I j L.
    exists (n_i (nth x0 tr j).2); rewrite (nth_map x0) // S3. exact: cost_least.
Qed.

(** Simultaneous, forward and inverse: the first appearance parameters explain the image; the later ones explain, under the
    prior if there is one, the previous image plus the change that the increment was predicted to bring about. *)
Theorem c73_simultaneous_partial : penrose A P -> full_rank A -> forall c a a' ps cs ss ks,
  (c_map c -> forall i, 0 <= s2_inv_S i 0) ->
  simultaneous_run project target_of warp exceeds A P a_bar s2_inv_S s2_inv_L jac sign c a = (a', Ok (ps, cs, ss, ks)) ->
  [/\ size cs = size ps,
      exists2 i, warp (c_image c) (nth 0 ps 0) = Ok i & explains A a_bar i (nth 0 cs 0),
      forall j, (j.+1 < size ps)%N -> exists i J, [/\ warp (c_image c) (nth 0 ps j) = Ok i, jac (c_image c) (nth 0 ps j) (nth 0 cs j) = Ok J
        & explains_with A a_bar (i + J *m increment sign (nth 0 ps j) (nth 0 ps j.+1)) (if c_map c then s2_inv_S else 0) (nth 0 cs j.+1)]
    & forall j l, (j < size ps)%N -> ks = Some l ->
        exists2 i, warp (c_image c) (nth 0 ps j) = Ok i & nth 0 l j = mismatch A a_bar i (nth 0 cs j)].
Proof.
  move=> PA R c a a' ps cs ss ks W H. have [tr [[/andP [Z _] _] H1 H2 [-> ->] [_ ->]]] := run_states x0 H.
  have [S [C _]] := start_sound H1.
  have I : forall j, (j < size tr)%N -> sound warp A a_bar (c_image c) (nth x0 tr j).
  { apply: (states_inv (I := sound warp A a_bar (c_image c)) _ _ H2); last by case: (nth x0 tr 0) S.
    move=> x y Hx Hy. by have [] := simultaneous_sound R W Hx Hy. }
  split; first by rewrite !size_map.
  - case: S => S1 S2 S3. exists (n_i (nth x0 tr 0).2); rewrite (nth_map x0) //. by apply/(explainsE _ _ _ PA R).
  - move=> j. rewrite size_map => L. have [S1 _ _] := I j (ltnW L). have [_ [J Ej Ec]] := simultaneous_sound R W (I j (ltnW L)) (H2 j L).
    exists (n_i (nth x0 tr j).2), J. by rewrite !(nth_map x0) // ?(ltnW L).
  - move=> j l. rewrite size_map => L. case: (c_costs c) => // -[<-]. have [S1 S2 S3] := I j L.
    exists (n_i (nth x0 tr j).2); rewrite !(nth_map x0) //. by rewrite plain_costE S3 S2.
Qed.

(** Alternating without map_inference, forward and inverse: the first and the second appearance parameters explain the first
    image (the first turn changes nothing about them), the later ones explain the previous image plus once more the change
    that the increment before it was predicted to bring about. *)
Theorem c73_alternating_partial : penrose A P -> full_rank A -> forall c a a' ps cs ss ks, c_map c = false ->
  alternating_run project target_of warp exceeds A P a_bar s2_inv_S s2_inv_L jac sign c a = (a', Ok (ps, cs, ss, ks)) ->
  [/\ size cs = size ps,
      (exists2 i, warp (c_image c) (nth 0 ps 0) = Ok i & explains A a_bar i (nth 0 cs 0)) /\ ((1 < size ps)%N -> nth 0 cs 1 = nth 0 cs 0),
      forall j, (j.+2 < size ps)%N -> exists i J, [/\ warp (c_image c) (nth 0 ps j.+1) = Ok i, jac (c_image c) (nth 0 ps j) (nth 0 cs j) = Ok J
        & explains A a_bar (i + J *m increment sign (nth 0 ps j) (nth 0 ps j.+1)) (nth 0 cs j.+2)]
    & forall j l, (j < size ps)%N -> ks = Some l ->
        exists2 i, warp (c_image c) (nth 0 ps j) = Ok i & nth 0 l j = mismatch A a_bar i (nth 0 cs j)].
Proof.
  move=> PA R c a a' ps cs ss ks M H. have [tr [[/andP [Z _] _] H1 H2 [-> ->] [_ ->]]] := run_states x0 H.
  have [S [C D]] := start_sound H1. rewrite M in H2.
  have I : forall j, (j < size tr)%N -> sound warp A a_bar (c_image c) (nth x0 tr j).
  { elim=> [|j IH] L; first by case: (nth x0 tr 0) S. by have [] := alternating_sound PA R (IH (ltnW L)) (H2 j L). }
  split; first by rewrite !size_map.
  - split.
    + case: S => S1 S2 S3. exists (n_i (nth x0 tr 0).2); rewrite (nth_map x0) //. by apply/(explainsE _ _ _ PA R).
    + rewrite size_map => L. have [_ E _] := alternating_sound PA R (I 0%N (ltnW L)) (H2 0%N L). by rewrite !(nth_map x0) // E D addr0 C.
  - move=> j. rewrite size_map => L. have L1 := ltnW L. have [S1 _ _] := I j.+1 L1.
    have [_ _ [J Ej Ed]] := alternating_sound PA R (I j (ltnW L1)) (H2 j L1). have [_ Ec _] := alternating_sound PA R (I j.+1 L1) (H2 j.+1 L).
    exists (n_i (nth x0 tr j.+1).2), J. rewrite !(nth_map x0) // ?(ltnW L1) //. split=> //. apply/(explainsE _ _ _ PA R). by rewrite Ec Ed.
  - move=> j l. rewrite size_map => L. case: (c_costs c) => // -[<-]. have [S1 S2 S3] := I j L.
    exists (n_i (nth x0 tr j).2); rewrite !(nth_map x0) //. by rewrite plain_costE S3 S2.
Qed.
End C73.
Print Assumptions c73_modified_alternating.
Print Assumptions c73_wiberg_partial.
Print Assumptions c73_simultaneous_partial.
Print Assumptions c73_alternating_partial.

(** A model and an image for which the reported appearance parameters do not explain the image at the reported shape; with
    the Wiberg algorithm the fit is perfect (the final cost is 0), the appearance parameters are those of its negative. *)
Theorem c73_wiberg_refuted : forall F : realFieldType, exists (warp : unit -> 'cV[F]_1 -> res 'cV[F]_(1 + 1)) (A : 'M[F]_(1 + 1, 1)) (P : 'M[F]_(1, 1 + 1))
    (jac : unit -> 'cV[F]_1 -> 'cV[F]_1 -> res 'M[F]_(1 + 1, 1)) c a a' p c1 c2 i,
  [/\ penrose A P, full_rank A,
      wiberg_run (fun s => s) (fun p => p) warp (fun _ _ => true) A P 0 0 jac true c a = (a', Ok ([:: 1%:M; p], [:: c1; c2], [:: 1%:M; p], Some [:: 1; 0])),
      warp (c_image c) p = Ok i & ~ explains A 0 i c2 /\ explains A 0 i (c2 + c1)].
Proof.
  move=> F. exists (@warp1 F), (@A1 F), (@P1 F), (@jac1 F), (@call1 F), (@alg0 F).
  have E := one_turn (fun s => cost_of (@A1 F) (@P1 F) (n_e s)) (@wiberg_start1 F) (@wiberg_turn1 F).
  do 4!eexists. exists (px 0 0). split; [exact: penrose1|exact: full1| |by rewrite /warp1|].
  - rewrite /wiberg_run E. do 3!f_equal. cbn [n_e]. have -> : cost_of (@A1 F) (@P1 F) (px 0 0) = 0 by rewrite /cost_of px0 trmx0 mul0mx mxE.
    by rewrite /cost_of /project_out P1_px A1_mul pxB px_dot subrr mulr0 subr0 mulr1 add0r mxE eqxx.
  - split=> /=.
    + move/(explainsE _ _ _ (@penrose1 F) (@full1 F)). rewrite subr0 P1_px => /scalar1_inj /eqP. by rewrite oppr_eq0 oner_eq0.
    + apply/(explainsE _ _ _ (@penrose1 F) (@full1 F)). by rewrite subr0 P1_px -raddfD /= addNr.
Qed.
Theorem c73_alternating_refuted : forall F : realFieldType, exists (warp : unit -> 'cV[F]_1 -> res 'cV[F]_(1 + 1)) (A : 'M[F]_(1 + 1, 1)) (P : 'M[F]_(1, 1 + 1))
    (jac : unit -> 'cV[F]_1 -> 'cV[F]_1 -> res 'M[F]_(1 + 1, 1)) c a a' ps cs ss ks i,
  [/\ penrose A P, full_rank A, c_map c = false /\ size ps = 2%N,
      alternating_run (fun s => s) (fun p => p) warp (fun _ _ => true) A P 0 0 0 jac true c a = (a', Ok (ps, cs, ss, ks))
    & warp (c_image c) (nth 0 ps 1) = Ok i /\ ~ explains A 0 i (nth 0 cs 1)].
Proof.
  move=> F. exists (@warp1 F), (@A1 F), (@P1 F), (@jac1 F), (@call1 F), (@alg0 F).
  have E := one_turn (fun s => plain_cost (n_e s)) (@start1 F) (@alternating_turn1 F 0).
  do 5!eexists. exists (px (1 / 2%:R) (1 / 2%:R)). split; [exact: penrose1|exact: full1| |exact: E|]; first by [].
  split=> //=. move/(explainsE _ _ _ (@penrose1 F) (@full1 F)). rewrite subr0 P1_px => /scalar1_inj /eqP.
  by rewrite eq_sym div1r invr_eq1 -[1]/(1%:R) eqr_nat.
Qed.
Theorem c73_simultaneous_refuted : forall F : realFieldType, exists (warp : unit -> 'cV[F]_1 -> res 'cV[F]_(1 + 1)) (A : 'M[F]_(1 + 1, 1)) (P : 'M[F]_(1, 1 + 1))
    (jac : unit -> 'cV[F]_1 -> 'cV[F]_1 -> res 'M[F]_(1 + 1, 1)) c a a' ps cs ss ks i,
  [/\ penrose A P, full_rank A, c_map c = false /\ size ps = 2%N,
      simultaneous_run (fun s => s) (fun p => p) warp (fun _ _ => true) A P 0 0 0 jac true c a = (a', Ok (ps, cs, ss, ks))
    & warp (c_image c) (nth 0 ps 1) = Ok i /\ ~ explains A 0 i (nth 0 cs 1)].
Proof.
  move=> F. exists (@warp2 F), (@A1 F), (@P1 F), (@jac1 F), (@call1 F), (@alg0 F).
  have E := one_turn (fun s => plain_cost (n_e s)) (@start2 F) (@simultaneous_turn1 F).
  do 5!eexists. exists (px 1 0). split; [exact: penrose1|exact: full1| |exact: E|]; first by [].
  split; first by rewrite /= /warp2 eqxx. move/(explainsE _ _ _ (@penrose1 F) (@full1 F)). rewrite /= subr0 P1_px -zero1 => /scalar1_inj /eqP.
  by rewrite eq_sym oner_eq0.
Qed.
Print Assumptions c73_wiberg_refuted.
Print Assumptions c73_alternating_refuted.
Print Assumptions c73_simultaneous_refuted.
(** The hypotheses of the positive theorems are met by the same model. *)
Example c73_example : forall F : realFieldType, penrose (@A1 F) (@P1 F) /\ full_rank (@A1 F).
Proof. move=> F. split; [exact: penrose1|exact: full1]. Qed.

(** Project-out and Wiberg forward compositional: the same shapes, parameters, costs and exceptions, for every image, every
    initial shape, with and without map_inference, whatever the objects were used for before. *)
Theorem c74_wiberg_forward : forall (F : realFieldType) k m n (Image Sh : Type) (project : Sh -> 'cV[F]_n) target_of (warp : Image -> 'cV[F]_n -> res 'cV[F]_k)
    exceeds (A : 'M[F]_(k, m)) P a_bar s2_inv_L jac_i c a g,
  (fc_run project target_of warp exceeds (cost_of A P) a_bar s2_inv_L jac_i (project_out A P) c a).2 =
  match (wiberg_run project target_of warp exceeds A P a_bar s2_inv_L (forward_jac jac_i) true c g).2 with
  | Ok (ps, _, ss, ks) => Ok (ps, ss, ks)
  | Err x => Err x
  end.
Proof.
  move=> F k m n Image Sh project target_of warp exceeds A P a_bar wL jac_i c a g. rewrite (wiberg_forward project target_of warp exceeds A P a_bar wL jac_i c a g).
  by case: (wiberg_run _ _ _ _ _ _ _ _ _ _ _ _).2 => [[[[? ?] ?] ?]|?].
Qed.

(** Simultaneous forward compositional without map_inference: the same shapes, parameters and exceptions as project-out, for
    every image and initial shape and appearance components of full rank; its costs are never smaller. *)
Theorem c74_simultaneous_forward : forall (F : realFieldType) k m n (Image Sh : Type) (project : Sh -> 'cV[F]_n) target_of (warp : Image -> 'cV[F]_n -> res 'cV[F]_k)
    exceeds (A : 'M[F]_(k, m)) P a_bar s2_inv_S s2_inv_L jac_i c a g, penrose A P -> full_rank A -> c_map c = false ->
  match (fc_run project target_of warp exceeds (cost_of A P) a_bar s2_inv_L jac_i (project_out A P) c a).2,
        (simultaneous_run project target_of warp exceeds A P a_bar s2_inv_S s2_inv_L (forward_jac jac_i) true c g).2 with
  | Ok (ps, ss, ks), Ok (ps', _, ss', ks') => [/\ ps = ps', ss = ss' & forall l l', ks = Some l -> ks' = Some l' ->
       forall j, (j < size ps)%N -> nth 0 l j <= nth 0 l' j]
  | Err x, Err x' => x = x'
  | _, _ => False
  end.
Proof.
  move=> F k m n Image Sh project target_of warp exceeds A P a_bar wS wL jac_i c a g PA R M.
  have W : c_map c -> forall i, 0 <= wS i 0 by rewrite M.
  have E := simultaneous_forward project target_of warp exceeds a_bar wS wL jac_i a g PA R M.
  have E2 := c74_wiberg_forward project target_of warp exceeds A P a_bar wL jac_i c a g.
  case E3 : (simultaneous_run _ _ _ _ _ _ _ _ _ _ _ _ _) E => [g' r]. cbn [snd].
  case E4 : (wiberg_run _ _ _ _ _ _ _ _ _ _ _ _) E2 => [g2 r2]. cbn [snd].
  case: (fc_run _ _ _ _ _ _ _ _ _ _ _).2 => [[[ps ss] ks]|x]; case: r E3 => [[[[ps' cs'] ss'] ks']|x'] E3 //=; last by move=> _ [->].
  move=> E2 [Ep Es]. case: r2 E4 E2 => [[[[ps2 cs2] ss2] ks2]|] // E4 [E5 E6 E7]. subst ps2 ss2 ks2.
  split=> // l l' El El' j L. have [_ _ _ C1] := c73_wiberg_partial PA R E4. have [i Wi [_ Le]] := C1 j l L El.
  have [_ _ _ C2] := c73_simultaneous_partial PA R W E3.
  rewrite Ep in L Wi *. have [i' Wi' ->] := C2 j l' L El'. move: Wi'. rewrite Wi => -[<-]. exact: Le.
Qed.
Print Assumptions c74_wiberg_forward.
Print Assumptions c74_simultaneous_forward.

(** With map_inference and positive priors no singular matrix stops a fit: project-out, Wiberg, modified alternating and
    simultaneous, forward and inverse, raise only what warping the image or computing its Jacobian raises; no assumption on
    the Jacobians or on the rank of the appearance model. *)
Section C75.
Variable F : realFieldType.
Variables (k m n : nat) (Image Sh : Type).
Variable project : Sh -> 'cV[F]_n.
Variable target_of : 'cV[F]_n -> Sh.
Variable warp : Image -> 'cV[F]_n -> res 'cV[F]_k.
Variable exceeds : Sh -> Sh -> bool.
Variable A : 'M[F]_(k, m).
Variable P : 'M[F]_(m, k).
Variable a_bar : 'cV[F]_k.
Variable s2_inv_S : 'cV[F]_m.
Variable s2_inv_L : 'cV[F]_n.
Variable jac : Image -> 'cV[F]_n -> 'cV[F]_m -> res 'M[F]_(k, n).
Variable jac_i : Image -> 'cV[F]_n -> res 'M[F]_(k, n).
Variable sign : bool.
Theorem c75_never_singular_partial : penrose A P -> (forall i, 0 < s2_inv_L i 0) -> forall c, c_map c ->
  (forall a x, (fc_run project target_of warp exceeds (cost_of A P) a_bar s2_inv_L jac_i (project_out A P) c a).2 = Err x ->
     (exists p, warp (c_image c) p = Err x) \/ (exists p, jac_i (c_image c) p = Err x)) /\
  forall a x, (wiberg_run project target_of warp exceeds A P a_bar s2_inv_L jac sign c a).2 = Err x \/
              (modified_run project target_of warp exceeds A P a_bar s2_inv_L jac sign c a).2 = Err x \/
              ((forall i, 0 < s2_inv_S i 0) /\
               (simultaneous_run project target_of warp exceeds A P a_bar s2_inv_S s2_inv_L jac sign c a).2 = Err x) ->
     (exists p, warp (c_image c) p = Err x) \/ (exists p q, jac (c_image c) p q = Err x).
Proof.
  move=> PA pos c M. split=> [a x|a x [H|[H|[posS H]]]].
  - rewrite (wiberg_forward project target_of warp exceeds A P a_bar s2_inv_L jac_i c a (AppAlg 0 (Inner 0 0 0 0 0))).
    case H : (wiberg_run _ _ _ _ _ _ _ _ _ _ _ _).2 => [[[[? ?] ?] ?]|y] //= [Ey]. subst y.
    have : outside warp (forward_jac (m:=m) jac_i) (c_image c) x.
    { case: (run_fails H) => [|[p [s]]]; first exact: wiberg_start_fails. rewrite M. exact: wiberg_fails. }
    case=> [|[p [q E]]]; [by left|right]. by exists p.
  - case: (run_fails H) => [|[p [s]]]; first exact: (@wiberg_start_fails _ _ _ _ _ warp A P a_bar jac). rewrite M. exact: wiberg_fails.
  - case: (run_fails H) => [|[p [s]]]; first exact: (@start_fails _ _ _ _ _ warp A P a_bar jac). rewrite M. exact: modified_fails.
  - case: (run_fails H) => [|[p [s]]]; first exact: (@start_fails _ _ _ _ _ warp A P a_bar jac). rewrite M. exact: simultaneous_fails.
Qed.

(** Alternating with map_inference: unless there are as many pixels as appearance components, no fit of at least one
    iteration ever returns. *)
Theorem c75_alternating_refuted : forall c a i, k <> m -> c_map c -> (0 < c_max_iters c)%N -> warp (c_image c) (project (c_shape c)) = Ok i ->
  (alternating_run project target_of warp exceeds A P a_bar s2_inv_S s2_inv_L jac sign c a).2 = Err ValueError.
Proof.
  move=> c a i N M L W. rewrite /alternating_run /app_run /start W. cbn [bind]. case: (c_max_iters c) L => // q _. cbn [app_loop].
  by rewrite M alternating_map.
Qed.
End C75.
(** The priors are positive when the appearance model has a positive noise variance and both models positive eigenvalues;
    without appearance noise they vanish but for the similarity, which is pulled towards the reference in any case. *)
Theorem c75_priors : forall (F : realFieldType) l m (sn an : F) (L : 'cV[F]_l) (S : 'cV[F]_m), 0 <= sn -> 0 <= an ->
  (forall i, 0 < L i 0) -> (forall i, 0 < S i 0) ->
  [/\ 0 < an -> (forall i, 0 < aam_shape_prior sn an L i 0) /\ (forall i, 0 < aam_appearance_prior sn an S i 0),
      an = 0 -> aam_appearance_prior sn an S = 0 /\ forall i : 'I_l, aam_shape_prior sn an L (rshift 4 i) 0 = 0
    & forall i : 'I_4, aam_shape_prior sn an L (lshift l i) 0 = 1].
Proof.
  move=> F l m sn an L S sn0 an0 PL PS. split.
  - move=> A0. have R : 0 < noise_ratio sn an.
    { rewrite /noise_ratio. case: eqP => [_|/eqP N]; first by rewrite divr1. by rewrite divr_gt0 // lt_neqAle eq_sym N. }
    split=> i; last by rewrite mxE divr_gt0. rewrite mxE. case: split => j; rewrite mxE; [exact: ltr01|by apply: divr_gt0].
  - move=> ->. have Z : noise_ratio sn 0 = 0 by rewrite /noise_ratio mul0r.
    split; first by apply/colP => i; rewrite !mxE Z mul0r. by move=> i; rewrite col_mxEd mxE Z mul0r.
  - by move=> i; rewrite col_mxEu mxE.
Qed.
Print Assumptions c75_never_singular_partial.
Print Assumptions c75_alternating_refuted.
Print Assumptions c75_priors.
(** Cases that meet the hypotheses: the model of the examples above has two pixels and one component. *)
Example c75_alternating_example : forall F : realFieldType, exists c : call unit 'cV[F]_1,
  [/\ c_map c, (0 < c_max_iters c)%N & exists i, warp1 (c_image c) (c_shape c) = Ok i].
Proof. move=> F. exists (Call tt 1%:M 1 true true). split=> //. by eexists. Qed.
