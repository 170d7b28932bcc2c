(** C35: probability maps. *)
From Coq Require Import List QArith Qcanon Bool Lia.
From Verif.Model Require Import Py ProbMap.
From Verif.Spec Require Import ProbMap.
From Verif.Proofs Require Import ProbMap.
Import ListNotations.
Local Open Scope Qc_scope.

(** If no response map is constant, every map becomes a probability distribution with its pixels in the same order, and the
    shape of the stack is kept.
    Missing: constant maps, see below. *)
Theorem c35_varying_maps_partial : forall x, Forall varies (maps x) ->
  exists y, probability_map x = Ok y /\ height y = height x /\ width y = width x /\
    Forall2 (fun m p => distribution p /\ same_order m p) (maps x) (maps y).
Proof.
  intros x V. unfold probability_map. rewrite Forall_forall in V.
  destruct (mapM_shifted (maps x)) as [xs [E F]]; [intros m M ->; destruct (V _ M) as [a [_ [[] _]]]|].
  rewrite E. cbn [bind].
  assert (A : forallb (fun b => b) (map (fun m => is_pos (qsum m)) xs) = true).
  { apply forallb_forall. intros b B. apply in_map_iff in B. destruct B as [s [<- S]].
    clear E. induction F as [|m s' ms ss H F IH]; [contradiction|].
    destruct S as [->|S]; [apply (shifted_varies _ _ H), V; now left|apply IH; auto]. intros; apply V; now right. }
  rewrite A. eexists. split; [reflexivity|]. split; [reflexivity|]. split; [reflexivity|]. cbn [maps].
  clear E A. induction F as [|m s ms ss H F IH]; cbn; constructor.
  - apply normalised_ok; [exact H|]. apply (shifted_varies _ _ H), V. now left.
  - apply IH. intros; apply V; now right.
Qed.
Print Assumptions c35_varying_maps_partial.
(** A single constant map makes the whole call raise, whatever the other maps are, unless the maps have one pixel. *)
Theorem c35_constant_map_refuted : forall x m, In m (maps x) -> ~ varies m -> (forall m, In m (maps x) -> m <> []) ->
  (height x, width x) <> (1, 1)%nat -> probability_map x = Err IndexError.
Proof.
  intros x m I NV NE S. unfold probability_map. destruct (mapM_shifted (maps x) NE) as [xs [E F]]. rewrite E. cbn [bind].
  assert (A : forallb (fun b => b) (map (fun m => is_pos (qsum m)) xs) = false).
  { apply not_true_is_false. intros T. rewrite forallb_forall in T. apply NV. clear E NE.
    induction F as [|m' s ms ss H F IH]; [contradiction|]. destruct I as [->|I].
    - apply (shifted_varies _ _ H). apply T. now left.
    - apply IH; auto. intros b B. apply T. now right. }
  rewrite A. destruct (Nat.eqb_spec (height x) 1); destruct (Nat.eqb_spec (width x) 1); cbn; try reflexivity. congruence.
Qed.
Print Assumptions c35_constant_map_refuted.
(** Maps of one pixel (which are constant) get the value 1/2. *)
Theorem c35_one_pixel_refuted : forall v vs, probability_map (Stack 1 1 (map (fun v => [v]) (v :: vs))) = Ok (Stack 1 1 (map (fun _ => [1 / (1 + 1)]) (v :: vs))) /\
  ~ distribution [1 / (1 + 1)].
Proof.
  intros v vs. split.
  - assert (S : forall a, shifted [a] = Ok [0]) by (intros a; unfold shifted; cbn; do 2 f_equal; ring).
    assert (M : forall l, mapM shifted (map (fun v => [v]) l) = Ok (map (fun _ => [0]) l)).
    { induction l as [|a l IH]; [reflexivity|]. cbn [map mapM]. rewrite S. cbn [bind]. rewrite IH. reflexivity. }
    unfold probability_map. cbn [maps height width]. rewrite M. cbn [bind].
    assert (P : is_pos (qsum [0]) = false) by reflexivity.
    cbn [map forallb]. rewrite P. cbn [andb Nat.eqb]. do 2 f_equal. rewrite map_map. f_equal.
  - intros [_ T]. revert T. discriminate.
Qed.
Print Assumptions c35_one_pixel_refuted.
(** So the maps become probability distributions if and only if none of them is constant. *)
Theorem c35_iff : forall x, (forall m, In m (maps x) -> length m = (height x * width x)%nat) -> (0 < height x * width x)%nat ->
  ((exists y, probability_map x = Ok y /\ Forall distribution (maps y) /\ length (maps y) = length (maps x)) <-> Forall varies (maps x)).
Proof.
  intros x L P. split.
  - intros (y & E & D & Ly). apply Forall_forall. intros m I. destruct (existsb (fun a => existsb (fun b => if Qclt_le_dec a b then true else false) m) m) eqn:V.
    + apply existsb_exists in V. destruct V as (a & Ia & V). apply existsb_exists in V. destruct V as (b & Ib & V).
      exists a, b. destruct (Qclt_le_dec a b); [auto|discriminate].
    + exfalso. assert (NV : ~ varies m).
      { intros (a & b & Ia & Ib & Lab). rewrite <- not_true_iff_false in V. apply V. apply existsb_exists. exists a. split; [exact Ia|].
        apply existsb_exists. exists b. split; [exact Ib|]. destruct (Qclt_le_dec a b) as [_|N]; [reflexivity|]. exfalso. exact (Qclt_not_le _ _ Lab N). }
      assert (NE : forall m, In m (maps x) -> m <> []) by (intros m' I' ->; apply L in I'; cbn in I'; lia).
      destruct (Nat.eq_dec (height x) 1) as [Hh|Hh]; [destruct (Nat.eq_dec (width x) 1) as [Hw|Hw]|].
      * assert (O : exists v vs, x = Stack 1 1 (map (fun v => [v]) (v :: vs))).
        { destruct x as [h w ms]. cbn [height width maps] in *. subst h w. clear E D Ly NV NE V P.
          assert (K : exists vs, ms = map (fun v => [v]) vs).
          { clear I. induction ms as [|a ms IH]; [exists []; reflexivity|]. destruct IH as [vs ->]; [intros m' H; apply L; now right|].
            pose proof (L a (or_introl eq_refl)) as La. destruct a as [|v [|]]; try discriminate. exists (v :: vs). reflexivity. }
          destruct K as [[|v vs] ->]; [contradiction|]. exists v, vs. reflexivity. }
        destruct O as (v & vs & ->). destruct (c35_one_pixel_refuted v vs) as [E' N]. rewrite E in E'. injection E' as ->.
        cbn [maps map] in D. apply N. inversion D. assumption.
      * rewrite (c35_constant_map_refuted x m I NV NE) in E; [discriminate|congruence].
      * rewrite (c35_constant_map_refuted x m I NV NE) in E; [discriminate|congruence].
  - intros V. destruct (c35_varying_maps_partial x V) as (y & E & _ & _ & F). exists y. split; [exact E|]. split.
    + clear - F. induction F as [|m p ms ps H F IH]; constructor; [apply H|exact IH].
    + clear - F. induction F; cbn; congruence.
Qed.
Print Assumptions c35_iff.
Example c35_example : let x := Stack 1 2 [[1; 0]; [0; 1 + 1]] in Forall varies (maps x) /\ exists y, probability_map x = Ok y /\ map (map this) (maps y) = [[1%Q; 0%Q]; [0%Q; 1%Q]].
Proof.
  cbn zeta. split.
  - repeat constructor; [exists 0, 1|exists 0, (1 + 1)]; cbn; intuition; reflexivity.
  - eexists. split; [reflexivity|]. reflexivity.
Qed.
Example c35_constant_example : let x := Stack 1 2 [[1; 0]; [1; 1]] in In [1; 1] (maps x) /\ ~ varies [1; 1].
Proof. cbn. split; [auto|]. intros [a [b [A [B L]]]]. cbn in A, B. destruct A as [<-|[<-|[]]]; destruct B as [<-|[<-|[]]]; exact (Qclt_not_le _ _ L (Qcle_refl 1)). Qed.
