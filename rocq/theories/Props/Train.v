(** C16, C49: batched and incremental training. *)
From Coq Require Import List ZArith Lia Arith Bool.
From Verif.Model Require Import Py Base Train.
From Verif.Spec Require Import Base Train.
From Verif.Proofs Require Train.
Import ListNotations.
Local Open Scope nat_scope.

Lemma ran {St} (o : outcome St) x : snd o = x -> o = (fst o, x).
Proof. intros <-. apply surjective_pairing. Qed.
Local Ltac run := eexists; split; [apply ran; vm_compute; reflexivity|].

(** ** C16 *)
(** AAMs, CLMs and APSs.  After a successful construction (with any positive batch size and some items,
    or without batch size) and any sequence of successful increment calls there is exactly one model of
    each kind per scale; each was built from the data of the first batch and incremented by the data of
    every other, in order; and the batches are the items of all calls, in order. *)
Theorem c16_models :
  forall Img D Ref n_scales n_kinds (data : nat -> nat -> Ref -> list Img -> res (list D)) reference_of
         (reference_shape : option Ref) items batch_size st0 calls st,
  (forall n, batch_size = Some n -> (1 <= n)%Z /\ items <> []) ->
  (forall its bs n, In (its, bs) calls -> bs = Some n -> (1 <= n)%Z) ->
  construct n_scales n_kinds data reference_of reference_shape items batch_size = (st0, None) ->
  increments n_scales n_kinds data reference_of calls st0 = (st, None) ->
  exists ref chunks0 chunks,
    cut items batch_size chunks0 /\ Forall2 (fun c ch => cut (fst c) (snd c) ch) calls chunks /\
    t_ref st = Some ref /\
    one_model_per_scale data n_scales n_kinds (t_models st) ref (chunks0 ++ concat chunks) /\
    concat (chunks0 ++ concat chunks) = items ++ concat (map fst calls).
Proof.
  intros Img D Ref n_scales n_kinds data rof r items bs st0 calls st Hbs Hcs Hc Hi.
  destruct (Proofs.Train.construct_good _ _ _ _ _ _ _ _ Hbs Hc) as (f & rest & ref & Hcut & Hr & _ & G).
  destruct (Proofs.Train.increments_good _ _ _ _ _ _ _ _ _ Hcs Hr G Hi) as (chs & F & Hr' & G').
  exists ref, (f :: rest), chs. split; [exact Hcut|]. split; [exact F|]. split; [exact Hr'|]. split; [exact G'|].
  rewrite concat_app, (Proofs.Train.cut_concat _ _ _ Hcut), (Proofs.Train.cuts_concat _ _ F). reflexivity.
Qed.
Print Assumptions c16_models.

(** When the data of a kind is computed sample by sample (shape models, expert ensembles), the model has
    consumed the samples of all items of all calls, exactly once each and in order. *)
Theorem c16_every_sample_once :
  forall Img D Ref n_scales n_kinds (data : nat -> nat -> Ref -> list Img -> res (list D)) reference_of
         (sample : nat -> nat -> Ref -> Img -> res D)
         (reference_shape : option Ref) items batch_size st0 calls st kind j m,
  (forall n, batch_size = Some n -> (1 <= n)%Z /\ items <> []) ->
  (forall its bs n, In (its, bs) calls -> bs = Some n -> (1 <= n)%Z) ->
  construct n_scales n_kinds data reference_of reference_shape items batch_size = (st0, None) ->
  increments n_scales n_kinds data reference_of calls st0 = (st, None) ->
  kind < n_kinds -> (forall ref b, data kind j ref b = mapM (sample kind j ref) b) ->
  nth_error (t_models st kind) j = Some m ->
  exists ref, t_ref st = Some ref /\ mapM (sample kind j ref) (items ++ concat (map fst calls)) = Ok (concat m).
Proof.
  intros Img D Ref n_scales n_kinds data rof sample r items bs st0 calls st kind j m Hbs Hcs Hc Hi Hk Hs Hm.
  destruct (c16_models _ _ _ _ _ _ _ _ _ _ _ _ _ Hbs Hcs Hc Hi) as (ref & c0 & ch & _ & _ & Hr & G & Hcat).
  exists ref. split; [exact Hr|]. destruct (G kind Hk) as [_ Hj]. rewrite <- Hcat.
  apply (Proofs.Train.trained_on_samples data sample kind j ref (Hs ref) _ _ (Hj j m Hm)).
Qed.
Print Assumptions c16_every_sample_once.

(** Construction succeeds whenever the data of every batch can be computed. *)
Theorem c16_construct_succeeds :
  forall Img D Ref n_scales n_kinds (data : nat -> nat -> Ref -> list Img -> res (list D)) reference_of
         (reference_shape : option Ref) items batch_size first rest ref,
  batches_of items batch_size = Ok (first :: rest) ->
  match reference_shape with Some r0 => ref = r0 | None => reference_of first = Ok ref end ->
  (forall b q j, In b (first :: rest) -> q < n_kinds -> j < n_scales -> exists d, data q j ref b = Ok d) ->
  exists st, construct n_scales n_kinds data reference_of reference_shape items batch_size = (st, None).
Proof. intros. eapply Proofs.Train.construct_succeeds; eauto. Qed.
Print Assumptions c16_construct_succeeds.

(** A concrete training: two scales, two kinds; the data of a batch is its items tagged. *)
Definition demo_data (kind j : nat) (ref : nat) (b : list nat) : res (list (nat * nat * nat * nat)) :=
  mapM (fun x => if x =? 99 then Err ValueError else Ok (kind, j, ref, x)) b.
Definition demo_ref (b : list nat) : res nat := match b with [] => Err IndexError | _ => Ok (length b) end.
Example c16_models_ex :
  exists st0, construct 2 2 demo_data demo_ref None [10; 20; 30] (Some 2%Z) = (st0, None) /\
  exists st, increments 2 2 demo_data demo_ref [([40; 50], None); ([60; 70; 80], Some 2%Z)] st0 = (st, None) /\
    t_ref st = Some 2 /\
    map (fun m => map (map snd) m) (t_models st 1) =
      [ [[10; 20]; [30]; [40; 50]; [60; 70]; [80]]; [[10; 20]; [30]; [40; 50]; [60; 70]; [80]] ].
Proof. run. run. vm_compute. split; reflexivity. Qed.

(** A batch size and no items (or batch size 0): construction succeeds without any model. *)
Theorem c16_no_models_refuted :
  exists st, construct 2 2 demo_data demo_ref None [10; 20] (Some 0%Z) = (st, None) /\ t_models st 0 = [] /\ t_ref st = None.
Proof. run. vm_compute. split; reflexivity. Qed.
Print Assumptions c16_no_models_refuted.

(** An increment that raises leaves some models with the new samples and others without them: not all
    or nothing.  (Here the data of the second scale of kind 0 cannot be computed.) *)
Definition demo_data_fail (kind j : nat) (ref : nat) (b : list nat) : res (list nat) :=
  if (j =? 1) && (match b with x :: _ => x =? 99 | [] => false end) then Err ValueError else Ok b.
Theorem c16_failed_increment_refuted :
  exists st0, construct 2 1 demo_data_fail demo_ref None [10; 20] None = (st0, None) /\
  exists st, increments 2 1 demo_data_fail demo_ref [([99; 30], None)] st0 = (st, Some ValueError) /\
    t_models st 0 = [ [[10; 20]; [99; 30]]; [[10; 20]] ].
Proof. run. run. vm_compute. reflexivity. Qed.
Print Assumptions c16_failed_increment_refuted.

(** ATMs: the shape models as above; the warped templates number (number of batches) x (number of
    scales), the first ones being those of the scales. *)
Theorem c16_atm_partial :
  forall Ref Tp Wt D Sh n_scales (data : nat -> Ref -> list Sh -> res (list D)) reference_of
         (rescale : Ref -> Tp -> res Tp) (warp : nat -> Ref -> Tp -> res Wt) reference_shape t shapes batch_size st,
  (forall n, batch_size = Some n -> (1 <= n)%Z /\ shapes <> []) ->
  atm_construct n_scales data reference_of rescale warp reference_shape t shapes batch_size = (st, None) ->
  exists ref chunks t',
    cut shapes batch_size chunks /\ a_ref st = Some ref /\ rescale ref t = Ok t' /\
    length (a_models st) = n_scales /\
    (forall j m, nth_error (a_models st) j = Some m -> Forall2 (fun b d => data j ref b = Ok d) chunks m) /\
    length (a_templates st) = length chunks * n_scales /\
    (forall j w, j < n_scales -> nth_error (a_templates st) j = Some w -> warp j ref t' = Ok w).
Proof.
  intros Ref Tp Wt D Sh n data rof rescale warp r t shapes bs st Hbs H.
  destruct (Proofs.Train.atm_construct_good _ _ _ _ _ _ _ _ _ _ Hbs H) as (f & rest & ref & Hc & Hr & _ & [G1 G2] & L & t' & Ht & Hw).
  exists ref, (f :: rest), t'. repeat (split; [assumption|]). exact Hw.
Qed.
Print Assumptions c16_atm_partial.

(** Without batches the default scale of instances, -1, displays the template warped for the last scale. *)
Theorem c16_atm_last_template :
  forall Ref Tp Wt D Sh n (data : nat -> Ref -> list Sh -> res (list D)) reference_of
         (rescale : Ref -> Tp -> res Tp) (warp : nat -> Ref -> Tp -> res Wt) reference_shape t shapes st,
  atm_construct (S n) data reference_of rescale warp reference_shape t shapes None = (st, None) ->
  exists ref t' w, a_ref st = Some ref /\ rescale ref t = Ok t' /\ warp n ref t' = Ok w /\ last_template st = Some w.
Proof.
  intros Ref Tp Wt D Sh n data rof rescale warp r t shapes st H.
  destruct (c16_atm_partial _ _ _ _ _ (S n) data rof rescale warp r t shapes None st ltac:(discriminate) H)
    as (ref & chunks & t' & Hc & Hr & Ht & _ & _ & L & Hw).
  cbn in Hc. subst chunks. cbn [length Nat.mul] in L. rewrite Nat.add_0_r in L. exists ref, t'.
  destruct (nth_error (a_templates st) n) as [w|] eqn:E; [|apply nth_error_None in E; lia].
  exists w. unfold last_template. rewrite L. replace (S n - 1) with n by lia. repeat split; auto.
Qed.
Print Assumptions c16_atm_last_template.

(** With two batches an ATM therefore holds two templates per scale. *)
Theorem c16_atm_templates_refuted :
  exists st, atm_construct 2 (fun j (ref : nat) (b : list nat) => Ok b) demo_ref (fun r (t : nat) => Ok (r + t))
               (fun j r t => Ok (j, t)) None 7 [10; 20; 30] (Some 2%Z) = (st, None)
    /\ length (a_models st) = 2 /\ length (a_templates st) = 4.
Proof. run. vm_compute. split; reflexivity. Qed.
Print Assumptions c16_atm_templates_refuted.

(** Linear AAMs and ATMs keep one dense reference frame for all scales: with two scales and two batches
    the model of the first scale is built with the frame of scale 0 and incremented with shapes
    densified by the frame of scale 1. *)
Theorem c16_linear_frames_refuted :
  exists st, linear_construct 2 (fun j (b : list nat) => j) [10; 20; 30; 40] (Some 2%Z) = (st, None)
    /\ l_models st = [ [0; 1]; [1; 1] ].
Proof. run. vm_compute. reflexivity. Qed.
Print Assumptions c16_linear_frames_refuted.

(** With a single scale, or without increments, the frames agree. *)
Theorem c16_linear_one_scale : forall Img Fr (frame_of : nat -> list Img -> Fr) items batch_size st,
  linear_construct 1 frame_of items batch_size = (st, None) ->
  Forall (fun m => forall fr, In fr m -> l_frame st = Some fr) (l_models st).
Proof.
  intros Img Fr frame_of items bs st. unfold linear_construct. destruct (batches_of items bs) as [ch|]; [|discriminate].
  assert (Gen : forall chs inc k (s s' : linear (Fr := Fr)),
    (inc = true \/ 0 < k \/ (l_models s = [] /\ k = 0)) ->
    (exists fr, l_frame s = Some fr /\ exists m, l_models s = [m] /\ forall x, In x m -> x = fr) \/ (l_models s = [] /\ k = 0 /\ inc = false) ->
    linear_batches 1 frame_of inc k chs s = (s', None) -> Forall (fun m => forall fr, In fr m -> l_frame s' = Some fr) (l_models s')).
  { induction chs as [|b r IH]; intros inc k s s' Hi Hs H.
    - assert (s' = s) by (cbn in H; congruence). subst. destruct Hs as [(fr & Hf & m & -> & Hm)|(-> & _)]; [|constructor].
      constructor; [|constructor]. intros x Hx. rewrite (Hm x Hx). exact Hf.
    - cbn [linear_batches] in H. apply Proofs.Train.andthen_ok in H. destruct H as (s1 & H1 & H2).
      cbn [seq linear_scales] in H1. apply Proofs.Train.andthen_ok in H1. destruct H1 as (s2 & H1 & H3).
      assert (s2 = s1) by congruence. subst s2.
      apply (IH _ _ _ _ (or_intror (or_introl (Nat.lt_0_succ k)))) in H2; [exact H2|]. left.
      destruct Hs as [(fr & Hf & m & Em & Hm)|(Em & -> & ->)].
      + destruct (if 0 <? k then true else inc) eqn:Ei.
        * rewrite Hf, Em in H1. cbn in H1. assert (E : s1 = mkLin (Some fr) [m ++ [fr]]) by congruence. subst s1.
          exists fr. split; [reflexivity|]. exists (m ++ [fr]). split; [reflexivity|]. intros x Hx. apply in_app_iff in Hx.
          destruct Hx as [Hx|[Hx|[]]]; auto.
        * exfalso. destruct (Nat.ltb_spec 0 k); [discriminate|]. subst inc. destruct Hi as [Hi|[Hi|[Hi _]]]; [discriminate|lia|congruence].
      + cbn in H1. rewrite Em in H1. cbn in H1. assert (E : s1 = mkLin (Some (frame_of 0 b)) [[frame_of 0 b]]) by congruence. subst s1.
        exists (frame_of 0 b). split; [reflexivity|]. exists [frame_of 0 b]. split; [reflexivity|]. intros x [Hx|[]]; auto. }
  intros H. eapply Gen; [| |exact H]; cbn; auto.
Qed.
Print Assumptions c16_linear_one_scale.
Example c16_linear_one_scale_ex : exists st,
  linear_construct 1 (fun j (b : list nat) => length b) [10; 20; 30] (Some 2%Z) = (st, None) /\ l_models st = [[2; 2]].
Proof. run. vm_compute. reflexivity. Qed.

(** ** C49 *)
(** The reference shape of an AAM, CLM or APS is the user's, or the one computed from the first batch. *)
Theorem c49_reference :
  forall Img D Ref n_scales n_kinds (data : nat -> nat -> Ref -> list Img -> res (list D)) reference_of
         (reference_shape : option Ref) items batch_size st,
  (forall n, batch_size = Some n -> (1 <= n)%Z /\ items <> []) ->
  construct n_scales n_kinds data reference_of reference_shape items batch_size = (st, None) ->
  exists first rest, cut items batch_size (first :: rest) /\
    match reference_shape with
    | Some r => t_ref st = Some r
    | None => exists r, reference_of first = Ok r /\ t_ref st = Some r
    end.
Proof.
  intros Img D Ref n_scales n_kinds data rof r items bs st Hbs H.
  destruct (Proofs.Train.construct_good _ _ _ _ _ _ _ _ Hbs H) as (f & rest & ref & Hcut & Hr & Hrr & _).
  exists f, rest. split; [exact Hcut|]. destruct r as [r0|]; [subst; exact Hr|]. exists ref. auto.
Qed.
Print Assumptions c49_reference.

(** Once set it never changes, over any further calls, whatever their batch sizes and even if one raises. *)
Theorem c49_reference_constant :
  forall Img D Ref n_scales n_kinds (data : nat -> nat -> Ref -> list Img -> res (list D)) reference_of calls st ref,
  t_ref st = Some ref ->
  t_ref (fst (increments n_scales n_kinds data reference_of calls st)) = Some ref.
Proof.
  intros Img D Ref n_scales n_kinds data rof calls. induction calls as [|[items bs] r IH]; intros st ref H; [exact H|].
  cbn [increments]. unfold andthen.
  assert (E : t_ref (fst (increment n_scales n_kinds data rof items bs st)) = Some ref).
  { unfold increment, train. destruct (batches_of items bs); [|exact H]. apply Proofs.Train.train_batches_ref_set. exact H. }
  destruct (snd (increment n_scales n_kinds data rof items bs st)); [exact E|]. apply IH. exact E.
Qed.
Print Assumptions c49_reference_constant.
Example c49_reference_ex :
  (exists st, construct 1 1 demo_data demo_ref (Some 5) [10; 20] (Some 1%Z) = (st, None) /\ t_ref st = Some 5) /\
  (exists st, construct 1 1 demo_data demo_ref None [10; 20; 30] (Some 2%Z) = (st, None) /\ t_ref st = Some 2 /\
     t_ref (fst (increments 1 1 demo_data demo_ref [([40; 50; 60], None); ([99], None)] st)) = Some 2).
Proof. split; run; vm_compute; try split; reflexivity. Qed.

(** ATMs. *)
Theorem c49_atm_reference :
  forall Ref Tp Wt D Sh n_scales (data : nat -> Ref -> list Sh -> res (list D)) reference_of
         (rescale : Ref -> Tp -> res Tp) (warp : nat -> Ref -> Tp -> res Wt) reference_shape t shapes batch_size st,
  (forall n, batch_size = Some n -> (1 <= n)%Z /\ shapes <> []) ->
  atm_construct n_scales data reference_of rescale warp reference_shape t shapes batch_size = (st, None) ->
  exists first rest, cut shapes batch_size (first :: rest) /\
    match reference_shape with
    | Some r => a_ref st = Some r
    | None => exists r, reference_of first = Ok r /\ a_ref st = Some r
    end.
Proof.
  intros Ref Tp Wt D Sh n data rof rescale warp r t shapes bs st Hbs H.
  destruct (Proofs.Train.atm_construct_good _ _ _ _ _ _ _ _ _ _ Hbs H) as (f & rest & ref & Hc & Hr & Hrr & _).
  exists f, rest. split; [exact Hc|]. destruct r as [r0|]; [subst; exact Hr|]. exists ref. auto.
Qed.
Print Assumptions c49_atm_reference.

(** UnifiedAAMCLM ignores the reference shape it is given. *)
Theorem c49_unified_refuted : exists st,
  unified_construct 1 1 demo_data demo_ref (Some 5) [10; 20] = (st, None) /\ t_ref st = Some 2.
Proof. run. vm_compute. reflexivity. Qed.
Print Assumptions c49_unified_refuted.
