(** C06 across scales for active pictorial structures: the three lists of costs of a multi-scale result. *)
From Coq Require Import List ZArith Lia Bool.
From Verif.Model Require Import Py RunLoop Result ApsResult.
From Verif.Spec Require Import RunLoop Result.
From Verif.Proofs Require RunLoop Result.
From Verif.Props Require RunLoop Result.
Import ListNotations.
Local Open Scope nat_scope.

(** [r] is the result of one scale: some run of an algorithm with costs requested or not, whose lists went into the result
    object (aps/algorithm/gn.py 419-424, 455-460). *)
Definition aps_scale {Sh P A C} (add : C -> C -> C) (rc : bool) (run : scale_run Sh P A C) (gt : option Sh) (r : aps_scale_result Sh P A C) : Prop :=
  exists (St E : Type) (step : St -> res (St * E)) exceeds (as_vector : St -> P) (target : St -> Sh) (ac dc : St -> C) max st0 cs,
    aps_run step exceeds as_vector target ac dc add max rc st0 = Ok (s_params run, s_shapes run, cs) /\
    a_result r = of_run gt run /\
    match cs with
    | None => s_costs run = None /\ a_appearance r = None /\ a_deformation r = None
    | Some (a, d, t) => s_costs run = Some t /\ a_appearance r = Some a /\ a_deformation r = Some d
    end.

Definition pointwise {C} (add : C -> C -> C) (a d : list C) : list C := map (fun p => add (fst p) (snd p)) (combine a d).

Lemma concat_some {X} (l : list (option (list X))) (ls : list (list X)) : l <> [] -> Forall2 (fun o x => o = Some x) l ls -> concat_attr l = Ok (Some (concat ls)).
Proof.
  intros N F. destruct F as [|o x l ls -> F]; [contradiction|]. unfold concat_attr. cbn [nth_res nth_error bind mapM].
  assert (E : mapM (fun o : option (list X) => match o with Some l => Ok l | None => Err TypeError end) l = Ok ls).
  { clear N. induction F as [|o y l ls -> F IH]; [reflexivity|]. cbn [mapM bind]. rewrite IH. reflexivity. }
  unfold nth_res. cbn [nth_error bind]. rewrite E. reflexivity.
Qed.
Lemma concat_none {X Y} (f : Y -> option (list X)) l : l <> [] -> Forall (fun y => f y = None) l -> concat_attr (map f l) = Ok None.
Proof. intros N F. destruct F as [|y l E F]; [contradiction|]. unfold concat_attr, nth_res. cbn [map nth_error bind]. rewrite E. reflexivity. Qed.

(** If costs were requested (the fitter requests them at all scales or at none), the multi-scale result has one appearance
    cost, one deformation cost and one total cost per shape of every scale, the total being their sum; if not, all are None. *)
Theorem c06_aps_multi_scale : forall Sh P A C (add : C -> C -> C) rc affine scale gt gts
    (runs : list (scale_run Sh P A C)) (results : list (aps_scale_result Sh P A C)),
  runs <> [] -> length runs <= length affine -> length runs <= length scale ->
  Forall2 (fun run r => aps_scale add rc run gts r) runs results ->
  exists m a d, aps_result results (length results) affine scale gt = Ok (m, a, d) /\
    (rc = false -> r_costs (m_res m) = None /\ a = None /\ d = None) /\
    (rc = true -> exists a' d', a = Some a' /\ d = Some d' /\ r_costs (m_res m) = Some (pointwise add a' d') /\
       length a' = length d' /\ length a' + length (opt_list (r_initial (m_res m))) = length (r_shapes (m_res m)) /\
       length a' = length (r_params (m_res m))).
Proof.
  intros Sh P A C add rc affine scale gt gts runs results Ne La Ls F.
  assert (Len : length results = length runs) by (clear -F; induction F; simpl; congruence).
  assert (Er : map a_result results = map (fun r => of_run gts r) runs).
  { clear -F. induction F as [|run r runs results [St [E [step [ex [av [ta [ac [dc [mx [st0 [cs [_ [Hr _]]]]]]]]]]]]] F IH]; [reflexivity|].
    cbn [map]. rewrite IH, Hr. reflexivity. }
  assert (Nr : results <> []) by (intros ->; destruct runs; [contradiction|discriminate]).
  assert (Pl : forall r, In r runs -> length (s_params r) = length (s_shapes r)).
  { clear -F. intros r0 H. induction F as [|run r runs results [St [E [step [ex [av [ta [ac [dc [mx [st0 [cs [H1 _]]]]]]]]]]]] F IH]; [contradiction|].
    destruct H as [<-|H]; [|apply IH; assumption].
    destruct (proj1 (proj1 (Props.RunLoop.c05_pictorial_structures _ _ _ _ _ _ _ _ _ _ _ _ _ _ _) _) H1) as [l [_ [_ E1]]].
    pose proof (f_equal (fun x => fst (fst x)) E1) as Ep. pose proof (f_equal (fun x => snd (fst x)) E1) as Es. cbn [fst snd] in Ep, Es.
    rewrite Ep, Es, !map_length. reflexivity. }
  destruct rc.
  - assert (G : exists as_ ds, Forall2 (fun (o : option (list C)) x => o = Some x) (map a_appearance results) as_ /\
        Forall2 (fun (o : option (list C)) x => o = Some x) (map a_deformation results) ds /\
        Forall2 (fun (o : option (list C)) x => o = Some x) (map s_costs runs) (map (fun p => pointwise add (fst p) (snd p)) (combine as_ ds)) /\
        map (@length C) as_ = map (fun r => length (s_shapes r)) runs /\ map (@length C) ds = map (fun r => length (s_shapes r)) runs).
    { clear -F. induction F as [|run r runs results [St [E [step [ex [av [ta [ac [dc [mx [st0 [cs [H1 [_ H2]]]]]]]]]]]]] F IH].
      - exists [], []. repeat split; constructor.
      - destruct IH as [as_ [ds [I1 [I2 [I3 [I4 I5]]]]]].
        destruct (proj1 (proj1 (Props.RunLoop.c05_pictorial_structures _ _ _ _ _ _ _ _ _ _ _ _ _ _ _) _) H1) as [l [_ [_ E1]]].
        pose proof (f_equal (fun x => snd (fst x)) E1) as Es. pose proof (f_equal snd E1) as Ec. cbn [fst snd] in Es, Ec. subst cs. destruct H2 as [Hc [Ha Hd]].
        exists (map ac (visited st0 l) :: as_), (map dc (visited st0 l) :: ds). cbn [map combine fst snd].
        assert (L : length (s_shapes run) = length (visited st0 l)) by (rewrite Es, map_length; reflexivity).
        repeat split; try (constructor; assumption).
        + constructor; [|assumption]. rewrite Hc. f_equal. unfold pointwise.
          clear. generalize (visited st0 l). intros v. induction v as [|x v IH]; [reflexivity|]. cbn [map combine fst snd]. rewrite IH. reflexivity.
        + rewrite map_length, L. f_equal. exact I4.
        + rewrite map_length, L. f_equal. exact I5. }
    destruct G as [as_ [ds [G1 [G2 [G3 [G4 G5]]]]]].
    assert (Nm : map s_costs runs <> []) by (destruct runs; [contradiction|discriminate]).
    assert (Na : map a_appearance results <> []) by (destruct results; [contradiction|discriminate]).
    assert (Nd : map a_deformation results <> []) by (destruct results; [contradiction|discriminate]).
    assert (Hc := concat_some _ _ Nm G3).
    destruct (Props.Result.c07_multi_scale Sh P A C (fun _ => gts) affine scale gt runs _ Ne La Ls Hc) as [m [M [_ [_ [Mi [Ms [_ [Mp [_ [Mc _]]]]]]]]]].
    assert (PL := Props.Result.c07_parameters_line_up Sh P A C (fun _ => gts) affine scale gt runs _ m Ne La Ls Hc Pl M).
    exists m, (Some (concat as_)), (Some (concat ds)). split.
    { unfold aps_result. rewrite Er, Len. rewrite M. cbn [bind].
      rewrite (concat_some _ _ Na G1). cbn [bind].
      rewrite (concat_some _ _ Nd G2). reflexivity. }
    split; [discriminate|]. intros _. exists (concat as_), (concat ds). split; [reflexivity|]. split; [reflexivity|].
    assert (CL : forall (x y : list (list C)), map (@length C) x = map (@length C) y -> length (concat x) = length (concat y) /\
       concat (map (fun p => pointwise add (fst p) (snd p)) (combine x y)) = pointwise add (concat x) (concat y)).
    { clear. induction x as [|a x IH]; intros [|b y] H; try discriminate; [split; reflexivity|]. cbn [map] in H.
      assert (H1 : length a = length b) by congruence. assert (H2 : map (@length C) x = map (@length C) y) by congruence.
      destruct (IH _ H2) as [I1 I2]. cbn [concat map combine fst snd]. split; [rewrite !app_length; lia|]. rewrite I2. unfold pointwise.
      rewrite <- map_app. f_equal. clear -H1. generalize (concat x), (concat y). intros u v. revert b H1. induction a as [|e a IH]; intros [|e' b] H; try discriminate; [reflexivity|].
      cbn [combine app]. f_equal. apply IH. cbn in H. congruence. }
    destruct (CL as_ ds ltac:(congruence)) as [C1 C2]. split; [rewrite Mc, C2; reflexivity|]. split; [exact C1|].
    assert (S1 : length (concat as_) = length (concat (map s_params runs))).
    { assert (Z : map (@length C) as_ = map (@length P) (map s_params runs)).
      { rewrite G4, map_map. apply map_ext_in. intros r H. symmetry. apply Pl. exact H. }
      clear -Z. revert Z. generalize (map s_params runs). induction as_ as [|x l IH]; intros [|y l'] H; try discriminate; [reflexivity|].
      cbn [map] in H. cbn [concat]. rewrite !app_length. assert (length x = length y) by congruence.
      assert (length (concat l) = length (concat l')) by (apply IH; congruence). lia. }
    rewrite <- Mp in S1. split; [rewrite S1; exact PL | exact S1].
  - assert (G : Forall (fun r : aps_scale_result Sh P A C => a_appearance r = None) results /\ Forall (fun r : aps_scale_result Sh P A C => a_deformation r = None) results /\
        Forall (fun r : scale_run Sh P A C => s_costs r = None) runs).
    { clear -F. induction F as [|run r runs results [St [E [step [ex [av [ta [ac [dc [mx [st0 [cs [H1 [_ H2]]]]]]]]]]]]] F IH].
      - repeat split; constructor.
      - destruct IH as [I1 [I2 I3]].
        destruct (proj1 (proj1 (Props.RunLoop.c05_pictorial_structures _ _ _ _ _ _ _ _ _ _ _ _ _ _ _) _) H1) as [l [_ [_ E1]]].
        pose proof (f_equal (fun x => snd (fst x)) E1) as Es. pose proof (f_equal snd E1) as Ec. cbn [fst snd] in Es, Ec. subst cs. destruct H2 as [Hc [Ha Hd]]. repeat split; constructor; assumption. }
    destruct G as [G1 [G2 G3]].
    assert (Hc : concat_attr (map s_costs runs) = Ok None) by (apply concat_none; assumption).
    destruct (Props.Result.c07_multi_scale Sh P A C (fun _ => gts) affine scale gt runs _ Ne La Ls Hc) as [m [M [_ [_ [Mi [Ms [_ [Mp [_ [Mc _]]]]]]]]]].
    exists m, None, None. split.
    { unfold aps_result. rewrite Er, Len. rewrite M. cbn [bind]. rewrite (concat_none a_appearance results Nr G1). cbn [bind].
      rewrite (concat_none a_deformation results Nr G2). reflexivity. }
    split; [auto | discriminate].
Qed.
Print Assumptions c06_aps_multi_scale.

(** Two scales that halve a number, with costs: one start and two iterations, then one start and one iteration. *)
Definition w_run1 : scale_run Z Z Z Z := mkRun (Some 9%Z) 16%Z [8; 4]%Z [8; 4; 2]%Z None (Some [72; 20; 6]%Z).
Definition w_run2 : scale_run Z Z Z Z := mkRun (Some 4%Z) 6%Z [2]%Z [3; 1]%Z None (Some [12; 2]%Z).
Definition w_res1 := mkApsScale (of_run (Some 0%Z) w_run1) (Some [64; 16; 4]%Z) (Some [8; 4; 2]%Z).
Definition w_res2 := mkApsScale (of_run (Some 0%Z) w_run2) (Some [9; 1]%Z) (Some [3; 1]%Z).
Example c06_aps_multi_scale_ex :
  Forall2 (fun run r => aps_scale Z.add true run (Some 0%Z) r) [w_run1; w_run2] [w_res1; w_res2] /\
  exists m, aps_result [w_res1; w_res2] 2 [Z.succ; Z.succ] [Z.double; fun x => x] None
    = Ok (m, Some [64; 16; 4; 9; 1]%Z, Some [8; 4; 2; 3; 1]%Z) /\ r_costs (m_res m) = Some [72; 20; 6; 12; 2]%Z.
Proof.
  split.
  - constructor; [|constructor; [|constructor]].
    + exists Z, Z, Props.RunLoop.halve, (fun e => 1 <? e)%Z, (fun s => s), (fun s => 2 * s)%Z, (fun s => s * s)%Z, (fun s => s), 2%Z, 8%Z.
      eexists. split; [vm_compute; reflexivity|]. split; [reflexivity|]. repeat split.
    + exists Z, Z, Props.RunLoop.halve, (fun e => 1 <? e)%Z, (fun s => s), (fun s => 2 * s)%Z, (fun s => s * s)%Z, (fun s => s), 1%Z, 3%Z.
      eexists. split; [vm_compute; reflexivity|]. split; [reflexivity|]. repeat split.
  - eexists. split; vm_compute; reflexivity.
Qed.
