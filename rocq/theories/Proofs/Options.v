From Coq Require Import String List ZArith QArith Bool Arith Lia.
From Verif.Model Require Import Py Checks Options.
From Verif.Spec Require Import Checks Options.
From Verif.Proofs Require Checks.
Import ListNotations.
Local Open Scope nat_scope.

(** The check that belongs to a kind of option. *)
Definition check (k : kind) (v : pyval) (n : nat) : res (list pyval) :=
  match k with
  | Func => check_callable v n
  | Count => check_max_components v n
  | Patch => check_patch_shape v n
  | Graph ts => check_graph v ts n
  | Iters => let? l := check_max_iters v n in Ok (map PInt l)
  end.

Lemma per_scale_valid sq (P : pyval -> Prop) n v vs : per_scale sq P n v vs -> Forall P vs /\ length vs = n.
Proof.
  intros H. inversion H; subst.
  - split; [|apply repeat_length]. apply Forall_forall. intros x Hx. apply repeat_spec in Hx. now subst.
  - split; [|apply repeat_length]. apply Forall_forall. intros y Hy. apply repeat_spec in Hy. now subst.
  - now split.
Qed.

Lemma check_valid k v n vs : 1 <= n -> check k v n = Ok vs ->
  Forall (valid k) vs /\ ((k = Patch -> n = 1 \/ forall x, ~ seq_of v [x]) -> length vs = n).
Proof.
  intros Hn. destruct k; cbn [check valid]; intros H.
  - apply Proofs.Checks.check_callable_spec in H; [|exact Hn]. destruct (per_scale_valid _ _ _ _ _ H). now split.
  - apply Proofs.Checks.check_max_components_spec in H; [|exact Hn]. destruct (per_scale_valid _ _ _ _ _ H). now split.
  - split; [apply (Proofs.Checks.check_patch_shape_sound v n vs H)|].
    intros HP. apply (Proofs.Checks.check_patch_shape_length v n vs H). specialize (HP eq_refl). tauto.
  - apply Proofs.Checks.check_graph_spec in H; [|exact Hn]. destruct (per_scale_valid _ _ _ _ _ H). now split.
  - destruct (check_max_iters v n) eqn:E; [|discriminate]. cbn [bind] in H. injection H as <-.
    apply Proofs.Checks.check_max_iters_length in E. rewrite map_length. split; [|now intros].
    apply Forall_forall. intros x Hx. apply in_map_iff in Hx. destruct Hx as (z & <- & _). now exists z.
Qed.

Lemma check_documented k v n vs : 1 <= n -> documented k n v vs -> check k v n = Ok vs.
Proof.
  intros Hn H. destruct H; cbn [check].
  - now apply Proofs.Checks.check_callable_spec.
  - now apply Proofs.Checks.check_max_components_spec.
  - now apply Proofs.Checks.check_ps_pair.
  - subst n. apply Proofs.Checks.check_ps_full; [exact H|exact H0|]. intros ->. cbn in Hn. lia.
  - now apply Proofs.Checks.check_graph_spec.
  - rewrite (Proofs.Checks.check_max_iters_list v zs n H H0). reflexivity.
  - subst m. rewrite (Proofs.Checks.check_max_iters_divisible k n Hn). cbn [bind]. f_equal.
    clear. induction n as [|n IH]; cbn [repeat map]; congruence.
Qed.

Definition counted (c : cls) (o : opts) (ss : list pyval) : res nat :=
  match c with
  | ATM | MaskedATM | LinearATM | LinearMaskedATM | PatchATM | CLM => py_len (o_scales o)
  | _ => Ok (length ss)
  end.

Ltac steps H :=
  repeat match type of H with
  | bind (Ok _) _ = Ok _ => cbn [bind] in H
  | bind ?x _ = Ok _ => let E := fresh "E" in destruct x eqn:E; [cbn [bind] in H|discriminate H]
  end.

Lemma diagonal_legal d x : check_diagonal d = Ok x -> d = None \/ exists q, d = Some q /\ (20 <= q)%Q.
Proof. intros H. apply Proofs.Checks.check_diagonal_spec in H. tauto. Qed.

Definition found (c : cls) (o : opts) (n : nat) (a : attrs) : Prop :=
  forall name k v, In (name, (k, v)) (options_of c o) -> exists vs, check k v n = Ok vs /\ stored a name vs.
Definition nothing_else (c : cls) (o : opts) (n : nat) (a : attrs) : Prop :=
  forall name vs, stored a name vs -> exists k v, check k v n = Ok vs /\ (k = Patch -> In (name, (k, v)) (options_of c o)).

Ltac each_option :=
  intros name k v Hin; cbn in Hin;
  repeat (destruct Hin as [Hin|Hin]; [injection Hin as <- <- <-; eexists; split; [cbn [check]; eassumption|cbn; tauto]|]);
  destruct Hin.

Lemma construct_inv c o a : construct c o = Ok a ->
  exists n, check_scales (o_scales o) = Ok (a_scales a) /\ counted c o (a_scales a) = Ok n /\ legal c o /\
    found c o n a /\ nothing_else c o n a /\ NoDup (map fst (a_opts a)).
Proof.
  intros H.
  destruct c; cbn [construct] in H;
    unfold masked_aam_init, linear_aam_init, patch_aam_init, masked_atm_init, linear_atm_init, aam_init, atm_init, aps_init,
      unified_init, sdm_init, dlib_init, lk_init, clm_init in H; cbn [default_shape_cls o_diagonal o_scales o_features o_shape_cls
      o_max_shape o_max_appearance o_patch_shape o_context_shape o_normalisation o_ensemble o_sd_cls o_patch_features
      o_iterations o_appearance_graph o_shape_graph o_deformation_graph o_batch_size] in H; steps H; injection H as <-;
    repeat match goal with
    | H1 : ?x = Ok ?a, H2 : ?x = Ok ?b |- _ => rewrite H1 in H2; injection H2 as <-
    | H1 : ?x = Ok _, H2 : match ?x with _ => _ end = Ok _ |- _ => rewrite H1 in H2
    end; cbn [a_scales counted]; eexists;
    (split; [first [reflexivity|eassumption]|]); (split; [first [eassumption|reflexivity]|]);
    (split; [split; [eapply diagonal_legal; eassumption|intros EC; first [discriminate EC|destruct (o_batch_size o); [reflexivity|discriminate..]]]|]);
    try match goal with E : check_max_iters ?v ?n = Ok ?l |- _ =>
      assert (check Iters v n = Ok (map PInt l)) by (cbn [check]; rewrite E; reflexivity) end;
    (split; [intros name k v Hin; cbn in Hin;
      repeat (destruct Hin as [Hin|Hin]; [injection Hin as <- <- <-; eexists; split; [eassumption|cbn; tauto]|]);
      destruct Hin|]);
    (split; [intros name vs Hin; cbn in Hin;
      repeat (destruct Hin as [Hin|Hin]; [injection Hin as <- <-;
        match goal with
        | E : check Iters ?v _ = Ok (map PInt ?l) |- exists k w, check k w _ = Ok (map PInt ?l) /\ _ => exists Iters, v; split; [exact E|discriminate]
        | E : check_callable ?v _ = Ok ?l |- exists k w, check k w _ = Ok ?l /\ _ => exists Func, v; split; [exact E|discriminate]
        | E : check_max_components ?v _ = Ok ?l |- exists k w, check k w _ = Ok ?l /\ _ => exists Count, v; split; [exact E|discriminate]
        | E : check_graph ?v ?ts _ = Ok ?l |- exists k w, check k w _ = Ok ?l /\ _ => exists (Graph ts), v; split; [exact E|discriminate]
        | E : check_patch_shape ?v _ = Ok ?l |- exists k w, check k w _ = Ok ?l /\ _ => exists Patch, v; split; [exact E|intros _; cbn; tauto]
        end|]);
      destruct Hin|]);
    cbn; repeat constructor; cbn; intuition discriminate.
Qed.

Lemma construct_ok c o ss n : legal c o -> check_scales (o_scales o) = Ok ss -> counted c o ss = Ok n -> 
  (forall name k v, In (name, (k, v)) (options_of c o) -> exists vs, check k v n = Ok vs) ->
  exists a, construct c o = Ok a /\ a_scales a = ss.
Proof.
  intros [HD HB] Hs Hc Ho.
  assert (Ed : check_diagonal (o_diagonal o) = Ok (o_diagonal o)) by (apply Proofs.Checks.check_diagonal_spec; tauto).
  assert (F0 : forall n, exists vs, check_callable no_op n = Ok vs) by (intros; eexists; reflexivity).
  assert (F1 : forall n, exists vs, check_callable ortho_pdm n = Ok vs) by (intros; eexists; reflexivity).
  destruct (F0 (length ss)) as (v0 & H0). destruct (F1 n) as (v1 & H1).
  destruct c; cbn [counted] in Hc; try (injection Hc as <-); cbn [options_of] in Ho;
    repeat match type of Ho with
    | forall name k v, In (name, (k, v)) ((?s, (?k1, ?v1)) :: ?r) -> _ =>
      let V := fresh "V" in let HV := fresh "HV" in
      destruct (Ho s k1 v1 (or_introl eq_refl)) as (V & HV); cbn [check] in HV;
      assert (Ho' : forall name k v, In (name, (k, v)) r -> exists vs, check k v _ = Ok vs) by (intros; eapply Ho; right; eassumption);
      clear Ho; rename Ho' into Ho
    end;
    try match type of HB with ?x = ?x -> _ => specialize (HB eq_refl) end;
    repeat match goal with HV : (let? l := check_max_iters ?v ?n in _) = Ok _ |- _ =>
      let E := fresh in destruct (check_max_iters v n) eqn:E; [cbn [bind] in HV|discriminate HV] end;
    cbn [construct]; unfold masked_aam_init, linear_aam_init, patch_aam_init, masked_atm_init, linear_atm_init, aam_init, atm_init, aps_init,
      unified_init, sdm_init, dlib_init, lk_init, clm_init; cbn [default_shape_cls o_diagonal o_scales o_features o_shape_cls
      o_max_shape o_max_appearance o_patch_shape o_context_shape o_normalisation o_ensemble o_sd_cls o_patch_features
      o_iterations o_appearance_graph o_shape_graph o_deformation_graph o_batch_size];
    try rewrite HB; try rewrite H0;
    repeat match goal with H : ?x = Ok _ |- context [bind ?x _] => rewrite H; cbn [bind] end;
    eexists; split; reflexivity.
Qed.
