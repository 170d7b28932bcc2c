From Coq Require Import List ZArith Lia Bool Arith.
From Verif.Model Require Import Py Base Train.
From Verif.Spec Require Import Base Train TrainCrash.
From Verif.Proofs Require Base Result.
From Verif.Proofs Require Import Train.
Import ListNotations.
Local Open Scope nat_scope.

Section Crash.
  Context {Img D Ref : Type}.
  Variables n_scales n_kinds : nat.
  Variable data : nat -> nat -> Ref -> list Img -> res (list D).
  Variable reference_of : list Img -> res Ref.
  Variable ref : Ref.
  Notation tstate := (tstate D Ref).
  Notation good := (each_trained data n_scales n_kinds ref).
  Notation hist := (nat -> nat -> list (list Img)).

  Definition plus (h : hist) (P : nat -> nat -> bool) (b : list Img) : hist := fun kind j => h kind j ++ if P kind j then [b] else [].
  Lemma good_ext ms (h h' : hist) : (forall kind j, kind < n_kinds -> j < n_scales -> h kind j = h' kind j) -> good ms h -> good ms h'.
  Proof. intros E G kind Hk. destruct (G kind Hk) as [L H]. split; [exact L|]. intros j Hj. rewrite <- E by assumption. exact (H j Hj). Qed.

  Lemma kind_step b j k (st : tstate) h : j < n_scales -> k < n_kinds -> good (t_models st) h ->
    match train_kind data true ref b j k st with
    | (st', None) => good (t_models st') (plus h (fun kind i => (kind =? k) && (i =? j)) b)
    | (st', Some e) => st' = st /\ data k j ref b = Err e
    end.
  Proof.
    intros Hj Hk G. unfold train_kind. destruct (data k j ref b) as [d|e] eqn:E; [|auto].
    destruct (G k Hk) as [L H]. destruct (H j Hj) as (m & Hm & Tm). rewrite Hm.
    intros kind Hkind. cbn [upd_models t_models]. destruct (Nat.eqb_spec kind k) as [->|Ne].
    - split; [rewrite set_nth_length by lia; exact L|]. intros i Hi. rewrite nth_error_set_nth by lia.
      unfold plus. rewrite Nat.eqb_refl. cbn [andb]. destruct (Nat.eqb_spec i j) as [->|Ni].
      + exists (m ++ [d]). split; [reflexivity|]. apply Forall2_app; [exact Tm|]. constructor; [exact E|constructor].
      + destruct (H i Hi) as (m' & Hm' & Tm'). exists m'. rewrite app_nil_r. auto.
    - destruct (G kind Hkind) as [L' H']. split; [exact L'|]. intros i Hi. destruct (H' i Hi) as (m' & Hm' & Tm').
      exists m'. split; [exact Hm'|]. unfold plus. destruct (Nat.eqb_spec kind k); [lia|]. cbn [andb]. rewrite app_nil_r. exact Tm'.
  Qed.

  Lemma kinds_step b j : forall n k0 (st : tstate) h, j < n_scales -> k0 + n <= n_kinds -> good (t_models st) h ->
    match train_kinds data true ref b j (seq k0 n) st with
    | (st', None) => good (t_models st') (plus h (fun kind i => (i =? j) && (k0 <=? kind) && (kind <? k0 + n)) b)
    | (st', Some e) => exists k1, k0 <= k1 < k0 + n /\ data k1 j ref b = Err e /\
        good (t_models st') (plus h (fun kind i => (i =? j) && (k0 <=? kind) && (kind <? k1)) b)
    end.
  Proof.
    induction n as [|n IH]; intros k0 st h Hj Hk G; cbn [seq train_kinds].
    - eapply good_ext; [|exact G]. intros kind i _ _. unfold plus.
      replace ((i =? j) && (k0 <=? kind) && (kind <? k0 + 0)) with false; [symmetry; apply app_nil_r|].
      destruct (Nat.eqb_spec i j), (Nat.leb_spec k0 kind), (Nat.ltb_spec kind (k0 + 0)); cbn; try reflexivity; lia.
    - pose proof (kind_step b j k0 st h Hj ltac:(lia) G) as K. unfold andthen.
      destruct (train_kind data true ref b j k0 st) as [s [e|]]; cbn [snd fst].
      + destruct K as [-> E]. exists k0. split; [lia|]. split; [exact E|]. eapply good_ext; [|exact G]. intros kind i _ _. unfold plus.
        replace ((i =? j) && (k0 <=? kind) && (kind <? k0)) with false; [symmetry; apply app_nil_r|].
        destruct (Nat.eqb_spec i j), (Nat.leb_spec k0 kind), (Nat.ltb_spec kind k0); cbn; try reflexivity; lia.
      + specialize (IH (S k0) s _ Hj ltac:(lia) K). destruct (train_kinds data true ref b j (seq (S k0) n) s) as [s' [e|]].
        * destruct IH as (k1 & H1 & E & G'). exists k1. split; [lia|]. split; [exact E|]. eapply good_ext; [|exact G']. intros kind i _ _. unfold plus.
          rewrite <- app_assoc. f_equal.
          destruct (Nat.eqb_spec i j), (Nat.leb_spec k0 kind), (Nat.leb_spec (S k0) kind), (Nat.ltb_spec kind k1), (Nat.eqb_spec kind k0); cbn; try reflexivity; lia.
        * eapply good_ext; [|exact IH]. intros kind i _ _. unfold plus. rewrite <- app_assoc. f_equal.
          destruct (Nat.eqb_spec i j), (Nat.leb_spec k0 kind), (Nat.leb_spec (S k0) kind), (Nat.ltb_spec kind (k0 + S n)), (Nat.ltb_spec kind (S k0 + n)), (Nat.eqb_spec kind k0); cbn; try reflexivity; lia.
  Qed.

  Lemma scales_step b : forall n j0 (st : tstate) h, j0 + n <= n_scales -> good (t_models st) h ->
    match train_scales n_kinds data true ref b (seq j0 n) st with
    | (st', None) => good (t_models st') (plus h (fun kind i => (j0 <=? i) && (i <? j0 + n)) b)
    | (st', Some e) => exists k1 j1, k1 < n_kinds /\ j0 <= j1 < j0 + n /\ data k1 j1 ref b = Err e /\
        good (t_models st') (plus h (fun kind i => (j0 <=? i) && before kind i k1 j1) b)
    end.
  Proof.
    induction n as [|n IH]; intros j0 st h Hj G; cbn [seq train_scales].
    - eapply good_ext; [|exact G]. intros kind i _ _. unfold plus.
      replace ((j0 <=? i) && (i <? j0 + 0)) with false; [symmetry; apply app_nil_r|].
      destruct (Nat.leb_spec j0 i), (Nat.ltb_spec i (j0 + 0)); cbn; try reflexivity; lia.
    - pose proof (kinds_step b j0 n_kinds 0 st h ltac:(lia) ltac:(lia) G) as K. unfold andthen.
      destruct (train_kinds data true ref b j0 (seq 0 n_kinds) st) as [s [e|]]; cbn [snd fst].
      + destruct K as (k1 & H1 & E & G'). exists k1, j0. split; [lia|]. split; [lia|]. split; [exact E|]. eapply good_ext; [|exact G'].
        intros kind i _ _. unfold plus, before. f_equal.
        destruct (Nat.eqb_spec i j0), (Nat.leb_spec j0 i), (Nat.ltb_spec i j0), (Nat.ltb_spec kind k1); cbn; try reflexivity; lia.
      + specialize (IH (S j0) s _ ltac:(lia) K). destruct (train_scales n_kinds data true ref b (seq (S j0) n) s) as [s' [e|]].
        * destruct IH as (k1 & j1 & H1 & H2 & E & G'). exists k1, j1. split; [exact H1|]. split; [lia|]. split; [exact E|]. eapply good_ext; [|exact G'].
          intros kind i Hkind _. unfold plus, before. rewrite <- app_assoc. f_equal.
          destruct (Nat.eqb_spec i j0), (Nat.leb_spec j0 i), (Nat.leb_spec (S j0) i), (Nat.ltb_spec i j1), (Nat.ltb_spec kind k1), (Nat.eqb_spec i j1), (Nat.ltb_spec kind (0 + n_kinds));
            cbn; try reflexivity; lia.
        * eapply good_ext; [|exact IH]. intros kind i Hkind _. unfold plus. rewrite <- app_assoc. f_equal.
          destruct (Nat.eqb_spec i j0), (Nat.leb_spec j0 i), (Nat.leb_spec (S j0) i), (Nat.ltb_spec i (j0 + S n)), (Nat.ltb_spec i (S j0 + n)), (Nat.ltb_spec kind (0 + n_kinds));
            cbn; try reflexivity; lia.
  Qed.

  Lemma train_batches_cons b r k (st : tstate) : t_ref st = Some ref ->
    train_batches n_scales n_kinds data reference_of true k (b :: r) st =
    andthen (train_scales n_kinds data true ref b (seq 0 n_scales) st) (train_batches n_scales n_kinds data reference_of true (S k) r).
  Proof.
    intros R. cbn [train_batches]. rewrite R. replace (if k =? 0 then (st, None) else (st, None)) with (st, @None exn) by (destruct (k =? 0); reflexivity).
    unfold andthen at 1. cbn [snd fst]. replace (if 0 <? k then true else true) with true by (destruct (0 <? k); reflexivity).
    unfold train_batch. rewrite R. reflexivity.
  Qed.
  (** A batch, then the batches of a call. *)
  Lemma batches_step : forall bs k (st : tstate) h, t_ref st = Some ref -> good (t_models st) h ->
    exists now, absorbed data n_scales n_kinds ref bs (snd (train_batches n_scales n_kinds data reference_of true k bs st)) now /\
      good (t_models (fst (train_batches n_scales n_kinds data reference_of true k bs st))) (fun kind j => h kind j ++ now kind j).
  Proof.
    induction bs as [|b r IH]; intros k st h R G.
    - exists (fun _ _ => []). split; [constructor|]. eapply good_ext; [|exact G]. intros. symmetry. apply app_nil_r.
    - rewrite (train_batches_cons b r k st R).
      pose proof (train_scales_ref n_kinds data true ref b (seq 0 n_scales) st) as RB. rewrite R in RB.
      pose proof (scales_step b n_scales 0 st h ltac:(lia) G) as K.
      destruct (train_scales n_kinds data true ref b (seq 0 n_scales) st) as [s [e|]]; unfold andthen; cbn [snd fst] in *.
      + destruct K as (k1 & j1 & H1 & H2 & E & G'). exists (fun kind j => [] ++ if before kind j k1 j1 then [b] else []).
        split; [eapply (Interrupted _ _ _ _ _ [] b r); eauto; lia|]. eapply good_ext; [|exact G']. intros kind i _ _. reflexivity.
      + destruct (IH (S k) s _ RB K) as (now & A & G'). remember (train_batches n_scales n_kinds data reference_of true (S k) r s) as o eqn:Eo. clear Eo.
        destruct A as [|done b' rest k1 j1 e E1 Hk Hj Er].
        * exists (fun _ _ => b :: r). split; [constructor|]. eapply good_ext; [|exact G']. intros kind i _ Hi. unfold plus. cbn [Nat.leb andb].
          destruct (Nat.ltb_spec i (0 + n_scales)); [|lia]. rewrite <- app_assoc. reflexivity.
        * exists (fun kind j => (b :: done) ++ if before kind j k1 j1 then [b'] else []).
          split; [eapply (Interrupted _ _ _ _ _ (b :: done) b' rest); eauto; cbn; rewrite E1; reflexivity|].
          eapply good_ext; [|exact G']. intros kind i _ Hi. unfold plus. cbn [Nat.leb andb].
          destruct (Nat.ltb_spec i (0 + n_scales)); [|lia]. rewrite <- app_assoc. reflexivity.
  Qed.

  Lemma increment_step items bs (st : tstate) h : (forall n, bs = Some n -> (1 <= n)%Z) -> t_ref st = Some ref -> good (t_models st) h ->
    let o := increment n_scales n_kinds data reference_of items bs st in
    exists chunks now, cut items bs chunks /\ absorbed data n_scales n_kinds ref chunks (snd o) now /\
      t_ref (fst o) = Some ref /\ good (t_models (fst o)) (fun kind j => h kind j ++ now kind j).
  Proof.
    intros Hbs R G. cbv zeta. unfold increment, train. destruct (batches_of items bs) as [chunks|e] eqn:E.
    - destruct (batches_step chunks 0 st h R G) as (now & A & G'). exists chunks, now. split; [exact (batches_of_cut items bs chunks Hbs E)|].
      split; [exact A|]. split; [apply train_batches_ref_set; exact R|exact G'].
    - exfalso. destruct bs as [n|]; cbn in E; [|discriminate]. specialize (Hbs n eq_refl). unfold batch in E.
      destruct (Z.ltb_spec n 0); [lia|discriminate].
  Qed.

  Lemma carry_on_step : forall calls (st : tstate) h, (forall its bs n, In (its, bs) calls -> bs = Some n -> (1 <= n)%Z) ->
    t_ref st = Some ref -> good (t_models st) h ->
    exists later, history data n_scales n_kinds ref calls (snd (carry_on n_scales n_kinds data reference_of calls st)) later /\
      t_ref (fst (carry_on n_scales n_kinds data reference_of calls st)) = Some ref /\ good (t_models (fst (carry_on n_scales n_kinds data reference_of calls st))) (fun kind j => h kind j ++ later kind j).
  Proof.
    induction calls as [|[items bs] r IH]; intros st h Hbs R G.
    - exists (fun _ _ => []). split; [constructor|]. split; [exact R|]. eapply good_ext; [|exact G]. intros. symmetry. apply app_nil_r.
    - destruct (increment_step items bs st h (fun n => Hbs items bs n (or_introl eq_refl)) R G) as (chunks & now & C & A & R' & G').
      destruct (IH _ _ (fun its b n H => Hbs its b n (or_intror H)) R' G') as (later & H & R'' & G'').
      exists (fun kind j => now kind j ++ later kind j). cbn [carry_on fst snd]. split; [econstructor; eauto|]. split; [exact R''|].
      eapply good_ext; [|exact G'']. intros. cbn. symmetry. apply app_assoc.
  Qed.
  Lemma good_of ms bs : one_model_per_scale data n_scales n_kinds ms ref bs -> good ms (fun _ _ => bs).
  Proof.
    intros G kind Hk. destruct (G kind Hk) as [L H]. split; [exact L|]. intros j Hj.
    destruct (nth_error (ms kind) j) as [m|] eqn:E; [|apply nth_error_None in E; lia]. exists m. auto.
  Qed.
  Lemma cut_functional items bs (c c' : list (list Img)) : cut items bs c -> cut items bs c' -> c = c'.
  Proof. destruct bs as [n|]; cbn; [|congruence]. intros [_ H] [_ H']. eapply Proofs.Base.chunks_of_unique; eauto. Qed.
  (** How far apart the models can be. *)
  Definition raised (es : list (option exn)) : nat := length (filter (fun e => match e with Some _ => true | None => false end) es).
  Lemma absorbed_gap chunks e now k j k' j' : absorbed data n_scales n_kinds ref chunks e now ->
    length (now k j) <= length (now k' j') + match e with Some _ => 1 | None => 0 end.
  Proof.
    intros [|done b rest k0 j0 x _ _ _ _]; [lia|]. rewrite !app_length. destruct (before k j k0 j0), (before k' j' k0 j0); cbn [length]; lia.
  Qed.
  Lemma history_gap calls es later k j k' j' : history data n_scales n_kinds ref calls es later ->
    length (later k j) <= length (later k' j') + raised es.
  Proof.
    induction 1 as [|items bs chunks e now calls es later _ A _ IH]; [cbn; lia|]. rewrite !app_length.
    pose proof (absorbed_gap _ _ _ k j k' j' A). unfold raised in *. destruct e; cbn [filter length] in *; lia.
  Qed.
  Lemma absorbed_order chunks e now k j k' j' : absorbed data n_scales n_kinds ref chunks e now -> before k j k' j' = true ->
    exists more, now k j = now k' j' ++ more.
  Proof.
    intros [|done b rest k0 j0 x _ _ _ _] H; [exists []; symmetry; apply app_nil_r|].
    destruct (before k' j' k0 j0) eqn:E'.
    - exists []. rewrite app_nil_r. replace (before k j k0 j0) with true; [reflexivity|]. unfold before in *.
      destruct (Nat.ltb_spec j j'), (Nat.eqb_spec j j'), (Nat.ltb_spec k k'), (Nat.ltb_spec j' j0), (Nat.eqb_spec j' j0), (Nat.ltb_spec k' k0),
        (Nat.ltb_spec j j0), (Nat.eqb_spec j j0), (Nat.ltb_spec k k0); cbn in *; try reflexivity; try discriminate; lia.
    - exists (if before k j k0 j0 then [b] else []). rewrite app_nil_r. reflexivity.
  Qed.
End Crash.
