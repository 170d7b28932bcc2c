From Coq Require Import List ZArith Lia Arith Bool.
From Verif.Model Require Import Py RunLoop.
From Verif.Spec Require Import RunLoop.
Import ListNotations.
Local Open Scope nat_scope.

Set Default Proof Using "Type".
Section P.
  Context {St P Sh A C E : Type}.
  Variable step : St -> res (St * E).
  Variable exceeds : E -> bool.
  Variable as_vector : St -> P.
  Variable target : St -> Sh.
  Variable app_of : St -> A.
  Variable cost : St -> C.
  Variable app_cost def_cost : St -> C.
  Variable add : C -> C -> C.

  (** The bare loop: the states and step lengths. *)
  Fixpoint states_loop (n : nat) (go : bool) (st : St) : res (list (St * E)) :=
    match n with
    | 0 => Ok []
    | S n' => if go then
                let? se := step st in
                let? l := states_loop n' (exceeds (snd se)) (fst se) in Ok (se :: l)
              else Ok []
    end.

  Definition stop_ok (n : nat) (go : bool) (l : list (St * E)) : Prop :=
    length l <= n /\ (go = false -> l = []) /\
    moves_before_last exceeds (map snd l) /\
    (length l < n -> (go = false /\ l = []) \/ converged exceeds (map snd l)).

  Lemma mbl_nil : moves_before_last exceeds ([] : list E).
  Proof. intros [|? ?] ? ? ? H; discriminate. Qed.

  Lemma mbl_cons e es : moves_before_last exceeds es -> (es <> [] -> exceeds e = true) ->
    moves_before_last exceeds (e :: es).
  Proof.
    intros H1 H2 [|p pre] x y post Heq; simpl in Heq.
    - injection Heq as -> ->. apply H2. discriminate.
    - injection Heq as -> ->. eapply H1; eauto.
  Qed.

  Lemma mbl_inv e es : moves_before_last exceeds (e :: es) ->
    moves_before_last exceeds es /\ (es <> [] -> exceeds e = true).
  Proof.
    intros H. split.
    - intros pre x y post ->. apply (H (e :: pre) x y post). reflexivity.
    - destruct es as [|e' es]; [congruence|]. intros _. apply (H [] e e' es). reflexivity.
  Qed.

  Lemma conv_cons e es : converged exceeds es -> converged exceeds (e :: es).
  Proof. intros (pre & x & -> & H). exists (e :: pre), x. split; auto. Qed.

  Lemma conv_cons_inv e es : converged exceeds (e :: es) ->
    (es = [] /\ exceeds e = false) \/ converged exceeds es.
  Proof.
    intros ([|p pre] & x & Heq & H); simpl in Heq; injection Heq as -> ->; auto.
    right. exists pre, x. auto.
  Qed.

  Lemma states_loop_spec : forall n go st l,
    states_loop n go st = Ok l <-> Traj step st l /\ stop_ok n go l.
  Proof.
    induction n as [|n IH]; intros go st l; cbn [states_loop].
    - split.
      + intros [= <-]. split; [constructor|]. repeat split; simpl; auto using mbl_nil; lia.
      + intros (_ & H & _). destruct l; simpl in H; [reflexivity|lia].
    - destruct go.
      2: { split.
           - intros [= <-]. split; [constructor|]. repeat split; simpl; auto using mbl_nil; lia.
           - intros (_ & _ & H & _). rewrite H; auto. }
      split.
      + destruct (step st) as [[s' e]|x] eqn:Es; cbn [bind fst snd]; [|discriminate].
        destruct (states_loop n (exceeds e) s') as [l'|] eqn:El; cbn [bind]; [|discriminate].
        intros [= <-]. apply IH in El. destruct El as (HT & Hlen & Hgo & Hm & Hc).
        split; [econstructor; eauto|]. split; [simpl; lia|]. split; [discriminate|]. split.
        * simpl. apply mbl_cons; auto. intros Hne. destruct (exceeds e) eqn:Ee; auto.
          rewrite Hgo in Hne by auto. simpl in Hne. congruence.
        * intros Hlt. right. simpl. simpl in Hlt. destruct Hc as [[He ->]|Hc]; [lia| |].
          -- exists [], e. split; auto.
          -- apply conv_cons; auto.
      + intros (HT & Hlen & _ & Hm & Hc). inversion HT as [|s s' e l' Es HT']; subst.
        * destruct (Hc ltac:(simpl; lia)) as [[? _]|(pre & x & Heq & _)]; [discriminate|].
          destruct pre; discriminate.
        * rewrite Es. cbn [bind fst snd].
          assert (El : states_loop n (exceeds e) s' = Ok l').
          { apply IH. split; auto. simpl in Hm. apply mbl_inv in Hm. destruct Hm as [Hm He].
            split; [simpl in Hlen; lia|]. split; [|split; auto].
            - intros Hf. destruct l'; auto. rewrite He in Hf; [discriminate|]. simpl. discriminate.
            - intros Hlt. destruct (Hc ltac:(simpl; lia)) as [[? _]|Hc']; [discriminate|].
              simpl in Hc'. apply conv_cons_inv in Hc'. destruct Hc' as [[Hnil Hf]|Hc']; auto.
              left. split; auto. destruct l'; auto. discriminate. }
          rewrite El. reflexivity.
  Qed.

  Lemma stop_ok_true n l : stop_ok n true l <-> well_stopped exceeds n (map snd l).
  Proof.
    unfold stop_ok, well_stopped. rewrite map_length. split.
    - intros (H1 & _ & H2 & H3). repeat split; auto. intros H. destruct (H3 H) as [[? _]|]; auto. discriminate.
    - intros (H1 & H2 & H3). repeat split; auto. discriminate.
  Qed.

  Lemma states_run_spec n st l :
    states_loop n true st = Ok l <-> Traj step st l /\ well_stopped exceeds n (map snd l).
  Proof. rewrite states_loop_spec, stop_ok_true. reflexivity. Qed.

  Lemma last_visited (se : St * E) l s0 :
    last (visited s0 (se :: l)) s0 = last (visited (fst se) l) (fst se).
  Proof.
    unfold visited. cbn [map]. change (last (s0 :: fst se :: map fst l) s0) with (last (fst se :: map fst l) s0).
    generalize (fst se) as a. generalize (map fst l) as m. clear.
    induction m as [|b m IH]; intros a; [reflexivity|].
    change (last (a :: b :: m) s0) with (last (b :: m) s0). change (last (a :: b :: m) a) with (last (b :: m) a).
    rewrite IH. clear. revert b. induction m as [|c m IH]; intros b; [reflexivity|].
    change (last (b :: c :: m) b) with (last (c :: m) b).
    change (last (b :: c :: m) a) with (last (c :: m) a).
    clear IH. revert c. induction m as [|d m IH]; intros c; [reflexivity|].
    change (last (d :: m) b = last (d :: m) a). apply IH.
  Qed.

  Lemma states_loop_err : forall n st x,
    states_loop n true st = Err x <-> raises step exceeds n st x.
  Proof.
    assert (G : forall n st x, states_loop n true st = Err x <-> raises step exceeds n st x).
    { induction n as [|n IH]; intros st x; cbn [states_loop].
      - split; [discriminate|]. intros (l & _ & H & _). lia.
      - split.
        + destruct (step st) as [[s' e]|y] eqn:Es; cbn [bind fst snd].
          * destruct (states_loop n (exceeds e) s') as [l'|y] eqn:El; cbn [bind]; [discriminate|].
            intros [= ->]. destruct (exceeds e) eqn:Ee.
            -- apply IH in El. destruct El as (l & HT & Hl & Hall & Herr).
               exists ((s', e) :: l). split; [econstructor; eauto|]. split; [simpl; lia|]. split.
               ++ intros se [<-|Hin]; auto.
               ++ rewrite last_visited. exact Herr.
            -- destruct n; discriminate.
          * intros [= ->]. exists []. split; [constructor|]. split; [simpl; lia|]. split.
            -- intros se [].
            -- exact Es.
        + intros (l & HT & Hl & Hall & Herr). inversion HT as [|s s' e l' Es HT']; subst.
          * simpl in Herr. rewrite Herr. reflexivity.
          * rewrite Es. cbn [bind fst snd].
            assert (Ee : exceeds e = true) by (apply (Hall (s', e)); left; reflexivity).
            rewrite Ee.
            assert (El : states_loop n true s' = Err x).
            { apply IH. exists l'. split; auto. split; [simpl in Hl; lia|]. split.
              - intros se Hin. apply Hall. right. auto.
              - rewrite last_visited in Herr. exact Herr. }
            rewrite El. reflexivity. }
    exact G.
  Qed.

  (** Each loop is the bare loop with accumulators. *)
  Lemma lk_loop_states : forall n go st pl sl cl,
    lk_loop step exceeds as_vector target cost n go st pl sl cl =
    let? l := states_loop n go st in
    Ok (pl ++ map (fun se => as_vector (fst se)) l, sl ++ map (fun se => target (fst se)) l,
        option_map (fun c => c ++ map cost (removelast (visited st l))) cl).
  Proof.
    induction n as [|n IH]; intros go st pl sl cl; cbn [lk_loop states_loop].
    - cbn. rewrite !app_nil_r. destruct cl; cbn; rewrite ?app_nil_r; reflexivity.
    - destruct go.
      2: { cbn. rewrite !app_nil_r. destruct cl; cbn; rewrite ?app_nil_r; reflexivity. }
      destruct (step st) as [[s' e]|x]; cbn [bind fst snd]; [|reflexivity].
      rewrite IH. destruct (states_loop n (exceeds e) s') as [l|x]; cbn [bind]; [|reflexivity].
      cbn [map fst]. rewrite <- !app_assoc. cbn [app]. do 2 f_equal.
      destruct cl; cbn [option_map]; [|reflexivity]. f_equal. rewrite <- app_assoc. f_equal.
  Qed.

  Lemma gn_loop_states : forall n go st pl sl cl,
    gn_loop step exceeds as_vector target cost n go st pl sl cl =
    let? l := states_loop n go st in
    Ok (pl ++ map (fun se => as_vector (fst se)) l, sl ++ map (fun se => target (fst se)) l,
        option_map (fun c => c ++ map (fun se => cost (fst se)) l) cl).
  Proof.
    induction n as [|n IH]; intros go st pl sl cl; cbn [gn_loop states_loop].
    - cbn. rewrite !app_nil_r. destruct cl; cbn; rewrite ?app_nil_r; reflexivity.
    - destruct go.
      2: { cbn. rewrite !app_nil_r. destruct cl; cbn; rewrite ?app_nil_r; reflexivity. }
      destruct (step st) as [[s' e]|x]; cbn [bind fst snd]; [|reflexivity].
      rewrite IH. destruct (states_loop n (exceeds e) s') as [l|x]; cbn [bind]; [|reflexivity].
      cbn [map fst]. rewrite <- !app_assoc. cbn [app]. do 2 f_equal.
      destruct cl; cbn [option_map]; [|reflexivity]. f_equal. rewrite <- app_assoc. reflexivity.
  Qed.

  Lemma gn_app_loop_states : forall n go st pl al sl cl,
    gn_app_loop step exceeds as_vector target app_of cost n go st pl al sl cl =
    let? l := states_loop n go st in
    Ok (pl ++ map (fun se => as_vector (fst se)) l, al ++ map (fun se => app_of (fst se)) l,
        sl ++ map (fun se => target (fst se)) l,
        option_map (fun c => c ++ map (fun se => cost (fst se)) l) cl).
  Proof.
    induction n as [|n IH]; intros go st pl al sl cl; cbn [gn_app_loop states_loop].
    - cbn. rewrite !app_nil_r. destruct cl; cbn; rewrite ?app_nil_r; reflexivity.
    - destruct go.
      2: { cbn. rewrite !app_nil_r. destruct cl; cbn; rewrite ?app_nil_r; reflexivity. }
      destruct (step st) as [[s' e]|x]; cbn [bind fst snd]; [|reflexivity].
      rewrite IH. destruct (states_loop n (exceeds e) s') as [l|x]; cbn [bind]; [|reflexivity].
      cbn [map fst]. rewrite <- !app_assoc. cbn [app]. do 2 f_equal.
      destruct cl; cbn [option_map]; [|reflexivity]. f_equal. rewrite <- app_assoc. reflexivity.
  Qed.

  Lemma aps_loop_states : forall n go st pl sl cl,
    aps_loop step exceeds as_vector target app_cost def_cost add n go st pl sl cl =
    let? l := states_loop n go st in
    Ok (pl ++ map (fun se => as_vector (fst se)) l, sl ++ map (fun se => target (fst se)) l,
        option_map (fun c : cost_lists =>
          let '(a, d, t) := c in
          (a ++ map (fun se => app_cost (fst se)) l, d ++ map (fun se => def_cost (fst se)) l,
           t ++ map (fun se => add (app_cost (fst se)) (def_cost (fst se))) l)) cl).
  Proof.
    induction n as [|n IH]; intros go st pl sl cl; cbn [aps_loop states_loop].
    - cbn. rewrite !app_nil_r. destruct cl as [[[a d] t]|]; cbn; rewrite ?app_nil_r; reflexivity.
    - destruct go.
      2: { cbn. rewrite !app_nil_r. destruct cl as [[[a d] t]|]; cbn; rewrite ?app_nil_r; reflexivity. }
      destruct (step st) as [[s' e]|x]; cbn [bind fst snd]; [|reflexivity].
      rewrite IH. destruct (states_loop n (exceeds e) s') as [l|x]; cbn [bind]; [|reflexivity].
      cbn [map fst]. rewrite <- !app_assoc. cbn [app]. do 2 f_equal.
      destruct cl as [[[a d] t]|]; cbn [option_map push_costs]; [|reflexivity]. rewrite <- !app_assoc. reflexivity.
  Qed.

  Lemma clm_loop_states : forall n go st pl sl,
    clm_loop step exceeds as_vector target n go st pl sl =
    let? l := states_loop n go st in
    Ok (pl ++ map (fun se => as_vector (fst se)) l, sl ++ map (fun se => target (fst se)) l).
  Proof.
    induction n as [|n IH]; intros go st pl sl; cbn [clm_loop states_loop].
    - cbn. rewrite !app_nil_r. reflexivity.
    - destruct go.
      2: { cbn. rewrite !app_nil_r. reflexivity. }
      destruct (step st) as [[s' e]|x]; cbn [bind fst snd]; [|reflexivity].
      rewrite IH. destruct (states_loop n (exceeds e) s') as [l|x]; cbn [bind]; [|reflexivity].
      cbn [map fst]. rewrite <- !app_assoc. reflexivity.
  Qed.

  (** A bind of the bare loop succeeds exactly on well stopped trajectories. *)
  Lemma states_bind {B} (f : list (St * E) -> B) n st (out : B) :
    (let? l := states_loop n true st in Ok (f l)) = Ok out <->
    exists l, Traj step st l /\ well_stopped exceeds n (map snd l) /\ out = f l.
  Proof.
    split.
    - destruct (states_loop n true st) as [l|] eqn:El; cbn [bind]; [|discriminate].
      intros [= <-]. apply states_run_spec in El. destruct El as [HT Hw]. exists l. split; [exact HT|split; [exact Hw|reflexivity]].
    - intros (l & HT & Hw & ->). assert (El : states_loop n true st = Ok l) by (apply states_run_spec; auto).
      rewrite El. reflexivity.
  Qed.

  Lemma states_bind_err {B} (f : list (St * E) -> B) n st x :
    (let? l := states_loop n true st in Ok (f l)) = Err x <-> raises step exceeds n st x.
  Proof.
    rewrite <- states_loop_err. destruct (states_loop n true st); cbn [bind]; split; congruence.
  Qed.

  Lemma visited_map {B} (f : St -> B) st (l : list (St * E)) : map f (visited st l) = [f st] ++ map (fun se => f (fst se)) l.
  Proof. unfold visited. cbn. rewrite map_map. reflexivity. Qed.

  Lemma lk_run_spec max rc st0 out :
    lk_run step exceeds as_vector target cost max rc st0 = Ok out <->
    exists l, Traj step st0 l /\ well_stopped exceeds (Z.to_nat max) (map snd l) /\
      out = (map as_vector (visited st0 l), map target (visited st0 l),
             if rc then Some (map cost (removelast (visited st0 l))) else None).
  Proof.
    unfold lk_run. rewrite lk_loop_states. rewrite states_bind.
    split; intros (l & HT & Hw & ->); exists l; (split; [exact HT|split; [exact Hw|]]); rewrite !visited_map; destruct rc; reflexivity.
  Qed.

  Lemma gn_run_spec max rc st0 out :
    gn_run step exceeds as_vector target cost max rc st0 = Ok out <->
    exists l, Traj step st0 l /\ well_stopped exceeds (Z.to_nat max) (map snd l) /\
      out = (map as_vector (visited st0 l), map target (visited st0 l),
             if rc then Some (map cost (visited st0 l)) else None).
  Proof.
    unfold gn_run. rewrite gn_loop_states. rewrite states_bind.
    split; intros (l & HT & Hw & ->); exists l; (split; [exact HT|split; [exact Hw|]]); rewrite !visited_map; destruct rc; reflexivity.
  Qed.

  Lemma gn_app_run_spec max rc st0 out :
    gn_app_run step exceeds as_vector target app_of cost max rc st0 = Ok out <->
    exists l, Traj step st0 l /\ well_stopped exceeds (Z.to_nat max) (map snd l) /\
      out = (map as_vector (visited st0 l), map app_of (visited st0 l), map target (visited st0 l),
             if rc then Some (map cost (visited st0 l)) else None).
  Proof.
    unfold gn_app_run. rewrite gn_app_loop_states. rewrite states_bind.
    split; intros (l & HT & Hw & ->); exists l; (split; [exact HT|split; [exact Hw|]]); rewrite !visited_map; destruct rc; reflexivity.
  Qed.

  Lemma aps_run_spec max rc st0 out :
    aps_run step exceeds as_vector target app_cost def_cost add max rc st0 = Ok out <->
    exists l, Traj step st0 l /\ well_stopped exceeds (Z.to_nat max) (map snd l) /\
      out = (map as_vector (visited st0 l), map target (visited st0 l),
             if rc then Some (map app_cost (visited st0 l), map def_cost (visited st0 l),
                              map (fun s => add (app_cost s) (def_cost s)) (visited st0 l)) else None).
  Proof.
    unfold aps_run. rewrite aps_loop_states. rewrite states_bind.
    split; intros (l & HT & Hw & ->); exists l; (split; [exact HT|split; [exact Hw|]]); rewrite !visited_map; destruct rc; reflexivity.
  Qed.

  Lemma clm_run_spec max rc st0 out :
    snd (clm_run step exceeds as_vector target max rc st0) = Ok out <->
    exists l, Traj step st0 l /\ well_stopped exceeds (Z.to_nat max) (map snd l) /\
      out = (map as_vector (visited st0 l), map target (visited st0 l)).
  Proof.
    unfold clm_run. cbn [snd]. rewrite clm_loop_states. rewrite states_bind.
    split; intros (l & HT & Hw & ->); exists l; (split; [exact HT|split; [exact Hw|]]); rewrite !visited_map; reflexivity.
  Qed.

  Lemma lk_run_err max rc st0 x :
    lk_run step exceeds as_vector target cost max rc st0 = Err x <-> raises step exceeds (Z.to_nat max) st0 x.
  Proof. unfold lk_run. rewrite lk_loop_states. apply states_bind_err. Qed.
  Lemma gn_run_err max rc st0 x :
    gn_run step exceeds as_vector target cost max rc st0 = Err x <-> raises step exceeds (Z.to_nat max) st0 x.
  Proof. unfold gn_run. rewrite gn_loop_states. apply states_bind_err. Qed.
  Lemma gn_app_run_err max rc st0 x :
    gn_app_run step exceeds as_vector target app_of cost max rc st0 = Err x <->
    raises step exceeds (Z.to_nat max) st0 x.
  Proof. unfold gn_app_run. rewrite gn_app_loop_states. apply states_bind_err. Qed.
  Lemma aps_run_err max rc st0 x :
    aps_run step exceeds as_vector target app_cost def_cost add max rc st0 = Err x <->
    raises step exceeds (Z.to_nat max) st0 x.
  Proof. unfold aps_run. rewrite aps_loop_states. apply states_bind_err. Qed.
  Lemma clm_run_err max rc st0 x :
    snd (clm_run step exceeds as_vector target max rc st0) = Err x <->
    raises step exceeds (Z.to_nat max) st0 x.
  Proof. unfold clm_run. cbn [snd]. rewrite clm_loop_states. apply states_bind_err. Qed.
End P.

Section Cas.
  Context {Rg St P Sh : Type}.
  Variable step : Rg -> St -> res St.
  Variable as_vector : St -> P.
  Variable target : St -> Sh.

  Lemma cascade_spec : forall regs st pl sl out,
    cascade step as_vector target regs st pl sl = Ok out <->
    exists l, CTraj step regs st l /\ out = (pl ++ map as_vector l, sl ++ map target l).
  Proof.
    induction regs as [|r regs IH]; intros st pl sl out; cbn [cascade].
    - split.
      + intros [= <-]. exists []. split; [constructor|]. cbn. rewrite !app_nil_r. reflexivity.
      + intros (l & HT & ->). inversion HT; subst. cbn. rewrite !app_nil_r. reflexivity.
    - split.
      + destruct (step r st) as [s'|] eqn:Es; cbn [bind]; [|discriminate]. intros H.
        apply IH in H. destruct H as (l & HT & ->). exists (s' :: l).
        split; [econstructor; eauto|]. rewrite <- !app_assoc. reflexivity.
      + intros (l & HT & ->). inversion HT as [|? ? ? s' l' Es HT']; subst. rewrite Es. cbn [bind].
        apply IH. exists l'. split; auto. rewrite <- !app_assoc. reflexivity.
  Qed.

  Lemma ctraj_length regs st l : CTraj step regs st l -> length l = length regs.
  Proof. induction 1; simpl; congruence. Qed.

  Lemma cascade_shapes_spec : forall regs st sl out,
    cascade_shapes step target regs st sl = Ok out <->
    exists l, CTraj step regs st l /\ out = sl ++ map target l.
  Proof.
    induction regs as [|r regs IH]; intros st sl out; cbn [cascade_shapes].
    - split.
      + intros [= <-]. exists []. split; [constructor|]. cbn. rewrite !app_nil_r. reflexivity.
      + intros (l & HT & ->). inversion HT; subst. cbn. rewrite !app_nil_r. reflexivity.
    - split.
      + destruct (step r st) as [s'|] eqn:Es; cbn [bind]; [|discriminate]. intros H.
        apply IH in H. destruct H as (l & HT & ->). exists (s' :: l).
        split; [econstructor; eauto|]. rewrite <- !app_assoc. reflexivity.
      + intros (l & HT & ->). inversion HT as [|? ? ? s' l' Es HT']; subst. rewrite Es. cbn [bind].
        apply IH. exists l'. split; auto. rewrite <- !app_assoc. reflexivity.
  Qed.
End Cas.
