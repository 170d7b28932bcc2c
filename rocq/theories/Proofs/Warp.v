From Coq Require Import List Lia.
From Verif.Model Require Import Py SdAam Warp.
From Verif.Spec Require Import Warp.
Import ListNotations.

Lemma bind_ok {A B} (a : res A) (f : A -> res B) b : bind a f = Ok b -> exists x, a = Ok x /\ f x = Ok b.
Proof. destruct a; cbn; [eauto|discriminate]. Qed.
Lemma F2_map {A B C} (P : A -> C -> Prop) (f : B -> C) : forall l r, Forall2 (fun a b => P a (f b)) l r -> Forall2 P l (map f r).
Proof. induction 1; cbn; constructor; auto. Qed.
Lemma F2_appl {A B} (P : A -> B -> Prop) a b c d : Forall2 P a b -> Forall2 P c d -> Forall2 P (a ++ c) (b ++ d).
Proof. induction 1; cbn; auto. Qed.
Lemma F2_nth {A B} (P : A -> B -> Prop) : forall l r k a, Forall2 P l r -> nth_error l k = Some a -> exists b, nth_error r k = Some b /\ P a b.
Proof. intros l r k a H. revert k. induction H; intros [|k] E; try discriminate; cbn in *; [injection E as ->; eauto|eauto]. Qed.

Section W.
  Context {Img Pt Px Ps P V : Type}.
  Notation shape := (list Pt).
  Variable sample : Img -> list Pt -> res Px.
  Variable align : shape -> shape -> list Pt -> res (list Pt).
  Variable patches : Img -> shape -> Ps -> res Px.
  Variable mean_of : list Px -> Px.
  Notation seen := (seen_at sample align).

  Lemma to_mask im mask f w : warp_to_mask sample im mask f = Ok w <->
    exists pts, f mask = Ok pts /\ sample im pts = Ok (w_px w) /\ w_mask w = mask /\ w_source w = None.
  Proof.
    unfold warp_to_mask. split.
    - intros H. apply bind_ok in H. destruct H as (pts & E & H). apply bind_ok in H. destruct H as (px & E2 & H).
      injection H as <-. cbn. exists pts. auto.
    - intros (pts & -> & E & M & Sr). cbn [bind]. rewrite E. cbn [bind]. destruct w; cbn in *. subst. reflexivity.
  Qed.
  Definition from_frame (fr : @frame Pt) (w : @warped Pt Px) : Prop := w_mask w = fr_mask fr /\ w_source w = Some (fr_source fr).
  Lemma loop_ok fr : forall pairs t ws, fst t = fr_source fr -> warp_loop sample align t fr pairs = Ok ws ->
    Forall2 (fun q w => seen fr (fst q) (snd q) (w_px w) /\ from_frame fr w) pairs ws.
  Proof.
    induction pairs as [|[i s] r IH]; intros t ws E H; cbn [warp_loop] in H.
    - injection H as <-. constructor.
    - apply bind_ok in H. destruct H as (w & Hw & H). apply bind_ok in H. destruct H as (ws' & Hws & H). injection H as <-.
      apply to_mask in Hw. destruct Hw as (pts & A & B & C & D). constructor.
      + cbn [fst snd w_px]. split; [|split; [exact C|reflexivity]]. exists pts. unfold tr_apply, tr_set_target in A. cbn in A. rewrite E in A. auto.
      + apply (IH (tr_set_target t s) _ E Hws).
  Qed.
  Lemma loop_total fr : forall pairs t, fst t = fr_source fr -> (forall q, In q pairs -> exists v, seen fr (fst q) (snd q) v) ->
    exists ws, warp_loop sample align t fr pairs = Ok ws.
  Proof.
    induction pairs as [|[i s] r IH]; intros t E H; cbn [warp_loop]; [eauto|].
    destruct (H (i, s) (or_introl eq_refl)) as (v & pts & A & B). cbn in A, B.
    unfold warp_to_mask, tr_apply, tr_set_target. cbn [fst snd]. rewrite E, A. cbn [bind]. rewrite B. cbn [bind].
    destruct (IH (fr_source fr, s) eq_refl) as [ws Hws]; [intros; apply H; right; assumption|]. rewrite Hws. cbn [bind]. eauto.
  Qed.

  Definition good (fr : @frame Pt) (pairs : list (Img * shape)) (a : @appearance Pt Px) : Prop :=
    from_frame fr (ap_template a) /\ Forall2 (fun q v => seen fr (fst q) (snd q) v) pairs (ap_values a).
  Lemma rest_good fr : forall batches pairs a a', good fr pairs a -> train_rest sample align fr a batches = Ok a' ->
    good fr (pairs ++ concat (map (fun b => combine (fst b) (snd b)) batches)) a'.
  Proof.
    induction batches as [|[ims ss] r IH]; intros pairs a a' G H; cbn [train_rest] in H.
    - injection H as <-. cbn. rewrite app_nil_r. exact G.
    - apply bind_ok in H. destruct H as (ws & Hw & H). cbn [map concat fst snd]. rewrite app_assoc. eapply IH; [|exact H].
      destruct G as [G1 G2]. split; [exact G1|]. cbn [ap_values pca_increment]. apply F2_appl; [exact G2|]. apply F2_map.
      apply loop_ok in Hw; [|reflexivity]. clear -Hw. induction Hw as [|q w l r [H _] Hw IH]; constructor; auto.
  Qed.
  Lemma train_good fr batches a : train_appearance sample align fr batches = Ok a ->
    good fr (concat (map (fun b => combine (fst b) (snd b)) batches)) a.
  Proof.
    destruct batches as [|[ims ss] r]; [discriminate|]. cbn [train_appearance map concat fst snd]. intros H.
    apply bind_ok in H. destruct H as (ws & Hw & H). apply bind_ok in H. destruct H as (a0 & Ha & H).
    eapply rest_good; [|exact H]. apply loop_ok in Hw; [|reflexivity]. destruct ws as [|w ws]; [discriminate|]. injection Ha as <-.
    split.
    - inversion Hw as [|? ? ? ? [_ HH] _]; subst. exact HH.
    - cbn [ap_values]. change (w_px w :: map w_px ws) with (map w_px (w :: ws)). apply F2_map. clear -Hw. induction Hw as [|q w' l r' [H _] Hw IH]; constructor; auto.
  Qed.

  Section Fit.
    Variable p_set_target : P -> shape -> res P.
    Variable p_sync : P -> res P.
    Variable p_from_vector : P -> V -> res P.
    Variable p_tgt : P -> shape.
    Notation moves := (itf_moves p_set_target p_sync p_from_vector p_tgt).
    Notation itf_step := (itf_move p_set_target p_sync p_from_vector p_tgt).
    (** The warp of the transform always leads to the target of the shape model. *)
    Definition synced (fr : @frame Pt) (i : @interface Pt Px P) : Prop :=
      i_source i = fr_source fr /\ w_mask (i_template i) = fr_mask fr /\ md_warp (i_md i) = md_tgt p_tgt (i_md i).
    Lemma step_synced fr m i i' : synced fr i -> itf_step m i = Ok i' -> synced fr i'.
    Proof.
      intros (A & B & C) H. unfold itf_move in H. apply bind_ok in H. destruct H as (d & Hd & H). injection H as <-.
      split; [exact A|]. split; [exact B|]. cbn [i_md]. destruct m as [s|v].
      - unfold md_set_target in Hd. apply bind_ok in Hd. destruct Hd as (p1 & _ & Hd). apply bind_ok in Hd. destruct Hd as (p2 & _ & Hd).
        injection Hd as <-. reflexivity.
      - unfold md_from_vector in Hd. apply bind_ok in Hd. destruct Hd as (p1 & _ & Hd). injection Hd as <-. reflexivity.
    Qed.
    Lemma moves_synced fr : forall ms i i', synced fr i -> moves ms i = Ok i' -> synced fr i'.
    Proof.
      induction ms as [|m ms IH]; intros i i' A H; cbn [itf_moves] in H; [injection H as <-; exact A|].
      apply bind_ok in H. destruct H as (i1 & H1 & H2). eapply IH; [|exact H2]. eapply step_synced; eauto.
    Qed.
    Lemma warp_synced fr i im v : synced fr i ->
      ((exists w, itf_warp sample align i im = Ok w /\ w_px w = v) <-> seen fr im (md_tgt p_tgt (i_md i)) v).
    Proof.
      intros (A & B & C). unfold itf_warp, seen_at. split.
      - intros (w & H & <-). apply to_mask in H. destruct H as (pts & H1 & H2 & _). exists pts. unfold tr_apply in H1. cbn in H1.
        rewrite A, B, C in H1. auto.
      - intros (pts & H1 & H2). exists (mkWarped (w_mask (i_template i)) v None). split; [|reflexivity]. apply to_mask. exists pts.
        unfold tr_apply. cbn. rewrite A, B, C. auto.
    Qed.
    Lemma reproduced s (i : @interface Pt Px P) : reproduces p_set_target p_sync p_tgt s ->
      exists i', itf_step (SetTarget s) i = Ok i' /\ md_tgt p_tgt (i_md i') = s.
    Proof.
      intros [R1 R2]. unfold itf_move, md_set_target. destruct (R1 (md_pdm (i_md i))) as (p1 & -> & T1). cbn [bind].
      destruct (R2 p1 T1) as (p2 & -> & T2). cbn [bind]. eexists. split; [reflexivity|]. exact T2.
    Qed.
  End Fit.
End W.
