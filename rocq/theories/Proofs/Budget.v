From Coq Require Import List ZArith Lia Bool.
From Verif.Model Require Import Py RunLoop.
From Verif.Spec Require Import RunLoop Budget.
Import ListNotations.
Local Open Scope nat_scope.

Lemma prefix_refl {A} (l : list A) : prefix l l. Proof. exists []; now rewrite app_nil_r. Qed.
Lemma prefix_map {A B} (f : A -> B) l l' : prefix l l' -> prefix (map f l) (map f l').
Proof. intros [x ->]. exists (map f x). apply map_app. Qed.
Lemma prefix_cons {A} (a : A) l l' : prefix l l' -> prefix (a :: l) (a :: l').
Proof. intros [r ->]. now exists r. Qed.

Section Traj.
  Context {St E : Type}.
  Variable step : St -> res (St * E).
  Variables exceeds exceeds' : E -> bool.
  Hypothesis looser : forall e, exceeds e = true -> exceeds' e = true.

  Lemma tail_stopped ex n (e e' : E) es : well_stopped ex n (e :: e' :: es) -> ex e = true /\ exists m, n = S m /\ well_stopped ex m (e' :: es).
  Proof.
    intros (L & M & C). split; [apply (M [] e e' es eq_refl)|]. destruct n as [|n]; [cbn in L; lia|]. exists n. split; [reflexivity|].
    split; [cbn in *; lia|]. split.
    - intros pre a b post H. apply (M (e :: pre) a b post). now rewrite H.
    - intros Lt. destruct C as (pre & a & H & X); [cbn in *; lia|]. destruct pre as [|p pre]; [discriminate|]. injection H as -> H. now exists pre, a.
  Qed.
  Lemma traj_prefix l1 : forall s l2 n1 n2, n1 <= n2 -> Traj step s l1 -> Traj step s l2 ->
    well_stopped exceeds n1 (map snd l1) -> well_stopped exceeds' n2 (map snd l2) -> prefix l1 l2.
  Proof.
    induction l1 as [|[s1 e1] l1 IH]; intros s l2 n1 n2 L T1 T2 W1 W2; [now exists l2|].
    inversion T1 as [|? ? ? ? S1 T1']; subst. destruct l2 as [|[s2 e2] l2].
    { destruct W2 as (_ & _ & C). destruct W1 as (L1 & _). destruct C as (pre & e & H & _); [cbn in *; lia|]. destruct pre; discriminate. }
    inversion T2 as [|? ? ? ? S2 T2']; subst. rewrite S1 in S2. injection S2 as <- <-. apply prefix_cons.
    destruct l1 as [|[s3 e3] l1]; [now exists l2|]. cbn [map snd] in W1. destruct (tail_stopped _ _ _ _ _ W1) as (X & m1 & -> & W1').
    destruct l2 as [|[s4 e4] l2].
    { destruct W2 as (_ & _ & C). destruct W1 as (L1 & _). destruct C as (pre & e & H & Y); [cbn in *; lia|].
      destruct pre as [|p [|q pre]]; [|discriminate|discriminate]. injection H as <-. apply looser in X. congruence. }
    destruct (tail_stopped _ _ _ _ _ W2) as (_ & m2 & -> & W2'). apply (IH s1 _ m1 m2); auto; lia.
  Qed.
  Lemma raises_longer n1 n2 s x : n1 <= n2 -> raises step exceeds n1 s x -> raises step exceeds' n2 s x.
  Proof. intros L (l & T & Ln & X & S1). exists l. split; [exact T|split; [lia|split; [|exact S1]]]. intros se H. apply looser, X, H. Qed.
  Lemma prefix_visited (s : St) (l l' : list (St * E)) : prefix l l' -> prefix (visited s l) (visited s l').
  Proof. intros H. apply prefix_cons, prefix_map, H. Qed.
  Lemma prefix_removelast {A} (a : A) l l' : prefix l l' -> prefix (removelast (a :: l)) (removelast (a :: l')).
  Proof.
    intros [r ->]. destruct r as [|b r]; [rewrite app_nil_r; apply prefix_refl|].
    exists (last (a :: l) a :: removelast (b :: r)). change (a :: l ++ b :: r) with ((a :: l) ++ b :: r).
    rewrite removelast_app by discriminate. rewrite (app_removelast_last a (l := a :: l)) at 1 by discriminate. now rewrite <- app_assoc.
  Qed.
  (** Every loop whose results are read off the trajectory. *)
  Lemma run_cut {X Y} (R : X -> Y -> Prop) (short : res X) (long : res Y) (f : list (St * E) -> X) (g : list (St * E) -> Y) n1 n2 s :
    n1 <= n2 ->
    (forall out, short = Ok out <-> exists l, Traj step s l /\ well_stopped exceeds n1 (map snd l) /\ out = f l) ->
    (forall x, short = Err x <-> raises step exceeds n1 s x) ->
    (forall out, long = Ok out <-> exists l, Traj step s l /\ well_stopped exceeds' n2 (map snd l) /\ out = g l) ->
    (forall x, long = Err x <-> raises step exceeds' n2 s x) ->
    (forall l l', prefix l l' -> R (f l) (g l')) -> cut_short R short long.
  Proof.
    intros L O1 E1 O2 E2 H. destruct short as [a|x]; destruct long as [b|y]; cbn; [| trivial | |].
    - destruct (proj1 (O1 a) eq_refl) as (l & T & W & ->). destruct (proj1 (O2 b) eq_refl) as (l' & T' & W' & ->).
      apply H. eapply traj_prefix; eauto.
    - assert (Q := proj2 (E2 x) (raises_longer _ _ _ _ L (proj1 (E1 x) eq_refl))). discriminate.
    - assert (Q := proj2 (E2 x) (raises_longer _ _ _ _ L (proj1 (E1 x) eq_refl))). congruence.
  Qed.
End Traj.

From Coq Require Import String QArith Qcanon.
From Verif.Model Require Import Dict Affine Result Checks Fitter.
From Verif.Spec Require Checks.
From Verif.Proofs Require Checks.
Local Open Scope nat_scope.
Section Multi.
  Context {Px P A C : Type}.
  Notation iresult := (iresult shape P A C).
  Notation image := (image Px).
  Variable algorithm : nat -> image -> shape -> option shape -> Z -> bool -> res iresult.
  Variable R : iresult -> iresult -> Prop.
  Hypothesis cut : forall i im sh gt k k' rc, (k <= k')%Z -> cut_short R (algorithm i im sh gt k rc) (algorithm i im sh gt k' rc).
  (** The same scales, but for the budget of the last one. *)
  Inductive last_budget : list (level Px) -> list (level Px) -> Prop :=
  | lb_nil : last_budget [] []
  | lb_last f s im a t g k k' : (k <= k')%Z -> last_budget [mkLevel f s im a t g k] [mkLevel f s im a t g k']
  | lb_cons lv l l' : last_budget l l' -> last_budget (lv :: l) (lv :: l').
  Definition last_cut (rs rs' : list iresult) : Prop :=
    rs = rs' \/ exists pre r r', rs = pre ++ [r] /\ rs' = pre ++ [r'] /\ R r r'.
  Lemma head_same l l' : last_budget l l' -> match l, l' with
    | [], [] => True
    | x :: _, y :: _ => l_feature x = l_feature y /\ l_scale x = l_scale y /\ l_image x = l_image y /\ l_affine x = l_affine y /\
                        l_scaling x = l_scaling y /\ l_gt x = l_gt y
    | _, _ => False end.
  Proof. destruct 1; cbn; [exact I|tauto|tauto]. Qed.
  Lemma levels_cut l l' : last_budget l l' -> forall i rc sh,
    cut_short last_cut (fit_levels algorithm i l rc sh) (fit_levels algorithm i l' rc sh).
  Proof.
    induction 1 as [|f s im a t g k k' Hk|lv l l' H IH]; intros i rc sh.
    - now left.
    - cbn. pose proof (cut i im sh g k k' rc Hk) as Q.
      destruct (algorithm i im sh g k rc) as [r|e]; destruct (algorithm i im sh g k' rc) as [r'|e']; cbn in *; auto.
      right. now exists [], r, r'.
    - cbn [fit_levels]. destruct (algorithm i _ sh _ _ rc) as [r|e]; cbn [bind]; [|reflexivity].
      pose proof (head_same _ _ H) as Hd. destruct l as [|x l]; destruct l' as [|y l']; try contradiction; [now left|].
      destruct Hd as (-> & -> & _ & -> & -> & _).
      destruct (next_shape _ _ _ _ _ _ _ _ _) as [sh'|e]; cbn [bind]; [|reflexivity].
      pose proof (IH (S i) rc sh') as Q. destruct (fit_levels algorithm (S i) (x :: l) rc sh') as [rs|e];
        destruct (fit_levels algorithm (S i) (y :: l') rc sh') as [rs'|e']; cbn in Q |- *; auto.
      destruct Q as [->|(pre & a & b & -> & -> & Q)]; [now left|]. right. now exists (r :: pre), a, b.
  Qed.
  Lemma zip_budget k k' : (k <= k')%Z -> forall ks fs ss ims afs scs gts,
    last_budget (zip_levels (Px := Px) fs ss ims afs scs gts (ks ++ [k])) (zip_levels fs ss ims afs scs gts (ks ++ [k'])).
  Proof.
    intros Hk ks. induction ks as [|n ks IH]; intros fs ss ims afs scs gts.
    - cbn [app]. destruct fs, ss, ims, afs, scs; cbn [zip_levels]; try apply lb_nil.
      assert (Z0 : forall a b c d e g, zip_levels (Px := Px) a b c d e g [] = []).
      { intros fs' ss' ims' afs' scs' g0. destruct fs', ss', ims', afs', scs'; reflexivity. }
      rewrite !Z0. now apply lb_last.
    - cbn [app]. destruct fs, ss, ims, afs, scs; cbn [zip_levels]; try apply lb_nil. apply lb_cons, IH.
  Qed.
  Lemma fit_cut F images s affs scs gts ks k k' v v' rc : (k <= k')%Z -> S (List.length ks) = List.length (scales F) ->
    Spec.Checks.seq_of v (map PInt (ks ++ [k])) -> Spec.Checks.seq_of v' (map PInt (ks ++ [k'])) ->
    cut_short last_cut (fit algorithm F images s affs scs gts v rc) (fit algorithm F images s affs scs gts v' rc).
  Proof.
    intros Hk L V V'. unfold fit.
    rewrite (Proofs.Checks.check_max_iters_list _ _ _ V), (Proofs.Checks.check_max_iters_list _ _ _ V') by (rewrite app_length; cbn; lia).
    cbn [bind]. apply levels_cut, zip_budget, Hk.
  Qed.
End Multi.
