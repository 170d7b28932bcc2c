(** C103: what is left behind by calls to increment of which some raise. *)
From Coq Require Import List ZArith Lia Arith Bool.
From Verif.Model Require Import Py Base Train.
From Verif.Spec Require Import Base Train TrainCrash.
From Verif.Proofs Require Train.
From Verif.Proofs Require TrainCrash.
From Verif.Props Require Import Train.
Import ListNotations.
Local Open Scope nat_scope.

(** Whatever batches raise, and at whatever scale and kind of model: after a history of calls there is still one model of
    each kind per scale, the reference shape is the one of the construction, and every model has consumed whole batches, in
    order: from a call that returned all of them, from a call that raised the batches before the one that failed, and that
    batch exactly when its place in the training comes before the place of the failure.  The exception that is raised is the one met
    in computing the data there. *)
Theorem c103_history :
  forall Img D Ref n_scales n_kinds (data : nat -> nat -> Ref -> list Img -> res (list D)) reference_of
         (reference_shape : option Ref) items batch_size st0 calls,
  (forall n, batch_size = Some n -> (1 <= n)%Z /\ items <> []) ->
  (forall its bs n, In (its, bs) calls -> bs = Some n -> (1 <= n)%Z) ->
  construct n_scales n_kinds data reference_of reference_shape items batch_size = (st0, None) ->
  let after := carry_on n_scales n_kinds data reference_of calls st0 in
  exists ref chunks0 later, t_ref st0 = Some ref /\ t_ref (fst after) = Some ref /\ cut items batch_size chunks0 /\
    history data n_scales n_kinds ref calls (snd after) later /\
    each_trained data n_scales n_kinds ref (t_models (fst after)) (fun kind j => chunks0 ++ later kind j).
Proof.
  intros Img D Ref n_scales n_kinds data rof r items bs st0 calls Hbs Hcs Hc. cbv zeta.
  destruct (Proofs.Train.construct_good _ _ _ _ _ _ _ _ Hbs Hc) as (f & rest & ref & Hcut & Hr & _ & G).
  destruct (Proofs.TrainCrash.carry_on_step n_scales n_kinds data rof ref calls st0 _ Hcs Hr (Proofs.TrainCrash.good_of _ _ _ _ _ _ G)) as (later & H & R' & G').
  exists ref, (f :: rest), later. auto.
Qed.
Print Assumptions c103_history.

(** Whether a call returns: exactly when the data of all its batches can be computed, for all kinds at all scales. *)
Theorem c103_returns_iff :
  forall Img D Ref n_scales n_kinds (data : nat -> nat -> Ref -> list Img -> res (list D)) reference_of st ref done items bs chunks,
  (forall n, bs = Some n -> (1 <= n)%Z) -> t_ref st = Some ref -> each_trained data n_scales n_kinds ref (t_models st) done ->
  cut items bs chunks ->
  (snd (increment n_scales n_kinds data reference_of items bs st) = None <->
   forall b kind j, In b chunks -> kind < n_kinds -> j < n_scales -> exists d, data kind j ref b = Ok d).
Proof.
  intros Img D Ref n_scales n_kinds data rof st ref done items bs chunks Hbs R G C.
  destruct (Proofs.TrainCrash.increment_step n_scales n_kinds data rof ref items bs st done Hbs R G) as (chunks' & now & C' & A & R' & G').
  assert (chunks' = chunks) as -> by exact (Proofs.TrainCrash.cut_functional _ _ _ _ C' C).
  split.
  - intros N b kind j Hb Hk Hj. rewrite N in A. inversion A; subst. destruct (G' kind Hk) as [_ H]. destruct (H j Hj) as (m & _ & T).
    apply Forall2_app_inv_l in T. destruct T as (m1 & m2 & _ & T2 & _). clear - T2 Hb.
    induction T2 as [|x d l l' Hd _ IH]; [destruct Hb|]. destruct Hb as [->|Hb]; eauto.
  - intros H. destruct A as [|done' b rest k0 j0 e E Hk Hj Er]; [reflexivity|]. exfalso.
    destruct (H b k0 j0) as (d & Ed); auto; [subst; apply in_elt|]. congruence.
Qed.
Print Assumptions c103_returns_iff.

(** One call from models that agree: a model of a lower scale, or of an earlier kind at the same scale, has consumed what the
    later ones have consumed, and at most one batch more. *)
Theorem c103_one_call :
  forall Img D Ref n_scales n_kinds (data : nat -> nat -> Ref -> list Img -> res (list D)) reference_of st ref done items bs,
  (forall n, bs = Some n -> (1 <= n)%Z) -> t_ref st = Some ref -> one_model_per_scale data n_scales n_kinds (t_models st) ref done ->
  exists now, each_trained data n_scales n_kinds ref (t_models (fst (increment n_scales n_kinds data reference_of items bs st))) (fun kind j => done ++ now kind j) /\
    (exists chunks, cut items bs chunks /\ forall kind j, exists rest, chunks = now kind j ++ rest) /\
    forall kind j kind' j', before kind j kind' j' = true -> exists more, now kind j = now kind' j' ++ more /\ length more <= 1.
Proof.
  intros Img D Ref n_scales n_kinds data rof st ref done items bs Hbs R G.
  destruct (Proofs.TrainCrash.increment_step n_scales n_kinds data rof ref items bs st _ Hbs R (Proofs.TrainCrash.good_of _ _ _ _ _ _ G)) as (chunks & now & C & A & R' & G').
  exists now. split; [exact G'|]. split.
  - exists chunks. split; [exact C|]. intros kind j. destruct A as [|dn b rest k0 j0 e E _ _ _]; [exists []; symmetry; apply app_nil_r|].
    destruct (before kind j k0 j0); [exists rest|exists (b :: rest)]; rewrite <- app_assoc; exact E.
  - intros kind j kind' j' B. destruct (Proofs.TrainCrash.absorbed_order _ _ _ _ _ _ _ _ _ _ _ A B) as (more & E).
    exists more. split; [exact E|]. pose proof (Proofs.TrainCrash.absorbed_gap _ _ _ _ _ _ _ kind j kind' j' A) as L. rewrite E, app_length in L.
    destruct (snd (increment n_scales n_kinds data rof items bs st)); lia.
Qed.
Print Assumptions c103_one_call.

(** Over a history, the numbers of batches that two models have consumed differ by at most the number of calls that raised. *)
Theorem c103_drift :
  forall Img D Ref n_scales n_kinds (data : nat -> nat -> Ref -> list Img -> res (list D)) reference_of
         (reference_shape : option Ref) items batch_size st0 calls kind j m kind' j' m',
  (forall n, batch_size = Some n -> (1 <= n)%Z /\ items <> []) ->
  (forall its bs n, In (its, bs) calls -> bs = Some n -> (1 <= n)%Z) ->
  construct n_scales n_kinds data reference_of reference_shape items batch_size = (st0, None) ->
  let after := carry_on n_scales n_kinds data reference_of calls st0 in
  kind < n_kinds -> kind' < n_kinds ->
  nth_error (t_models (fst after) kind) j = Some m -> nth_error (t_models (fst after) kind') j' = Some m' ->
  length m <= length m' + length (filter (fun e => match e with Some _ => true | None => false end) (snd after)).
Proof.
  intros Img D Ref n_scales n_kinds data rof r items bs st0 calls kind j m kind' j' m' Hbs Hcs Hc. cbv zeta. intros Hk Hk' Hm Hm'.
  destruct (c103_history _ _ _ _ _ _ _ _ _ _ _ _ Hbs Hcs Hc) as (ref & c0 & later & _ & _ & _ & H & G).
  assert (Len : forall k i x, k < n_kinds -> nth_error (t_models (fst (carry_on n_scales n_kinds data rof calls st0)) k) i = Some x -> length x = length c0 + length (later k i)).
  { intros k i x Hki Hx. destruct (G k Hki) as [L T]. assert (Hi : i < n_scales) by (rewrite <- L; apply nth_error_Some; congruence).
    destruct (T i Hi) as (x' & Hx' & F). rewrite Hx in Hx'. injection Hx' as <-. assert (E : length (c0 ++ later k i) = length x) by (clear - F; unfold trained_on in F; induction F; cbn [length]; congruence).
    rewrite app_length in E. lia. }
  rewrite (Len _ _ _ Hk Hm), (Len _ _ _ Hk' Hm').
  pose proof (Proofs.TrainCrash.history_gap _ _ _ _ _ _ _ kind j kind' j' H) as Gap. unfold Proofs.TrainCrash.raised in Gap. lia.
Qed.
Print Assumptions c103_drift.

(** Two scales, two kinds; the second batch of the first call fails for the second kind of the lower scale. *)
Definition demo_flaky (kind j : nat) (ref : nat) (b : list nat) : res (list nat) :=
  if (kind =? 1) && (j =? 0) && (match b with [30; 99] => true | _ => false end) then Err ValueError else Ok b.
Example c103_history_ex :
  exists st0, construct 2 2 demo_flaky demo_ref None [10] None = (st0, None) /\
    let after := carry_on 2 2 demo_flaky demo_ref [([20; 25; 30; 99; 40], Some 2%Z); ([50], None)] st0 in
    snd after = [Some ValueError; None] /\
    t_models (fst after) 0 = [ [[10]; [20; 25]; [30; 99]; [50]]; [[10]; [20; 25]; [50]] ] /\
    t_models (fst after) 1 = [ [[10]; [20; 25]; [50]]; [[10]; [20; 25]; [50]] ].
Proof. eexists. split; [apply ran; vm_compute; reflexivity|]. vm_compute. auto. Qed.
(** A caller who takes the failing image out and calls again: the other image of the call is counted twice by some models and
    once by others, and the image that was taken out stays in some of them. *)
Theorem c103_retry_refuted :
  exists st0, construct 2 2 demo_flaky demo_ref None [10] None = (st0, None) /\
    let after := carry_on 2 2 demo_flaky demo_ref [([30; 99], None); ([30], None)] st0 in
    snd after = [Some ValueError; None] /\
    t_models (fst after) 0 = [ [[10]; [30; 99]; [30]]; [[10]; [30]] ] /\
    t_models (fst after) 1 = [ [[10]; [30]]; [[10]; [30]] ].
Proof. eexists. split; [apply ran; vm_compute; reflexivity|]. vm_compute. auto. Qed.
Print Assumptions c103_retry_refuted.
