(** C87: instances of trained models, and the instances that can be drawn at random. *)
From Coq Require Import ZArith.
From mathcomp Require Import all_ssreflect all_algebra.
From Verif.Model Require Import Py PyIndex Instances.
From Verif.Spec Require Import PyIndex Instances.
From Verif.Proofs Require PyIndex Instances.
Set Implicit Arguments.
Unset Strict Implicit.
Unset Printing Implicit Defensive.
Import Order.Theory GRing.Theory Num.Theory.
Local Open Scope ring_scope.

Section Props.
  Variable F : rcfType.

  (** Two lists with an entry for each scale: an index names the same scale in both. *)
  Lemma same_scale (A B : Type) (l : seq A) (l' : seq B) i k a b :
    size l' = size l -> names_scale (size l) i k -> List.nth_error l k = Some a ->
    List.nth_error l' k = Some b -> py_at l i = Ok a /\ py_at l' i = Ok b.
  Proof.
    move=> sz nm Ha Hb; split; first exact: (@PyIndex.py_at_names _ l i k a nm Ha).
    by apply: (@PyIndex.py_at_names _ l' i k b _ Hb); rewrite -[length l']/(size l') sz.
  Qed.

  Lemma displays_texture (A B : Type) (x : rendered A B) s t s' t' :
    displays x s t -> displays x s' t' -> t = t'.
  Proof. by case: x => [? ? ? ?|? ?] [<- _] [<- _]. Qed.

  Section Aam.
    Variables (V W : lmodType F).
    Variables (a : aam V W) (i : Z) (k : nat) (sm : pca V) (am : pca W) (ps : nat * nat).
    Hypothesis apps : size (aam_app a) = size (aam_shape a).
    Hypothesis patches : size (aam_patch a) = size (aam_shape a).
    Hypothesis scale : names_scale (size (aam_shape a)) i k.
    Hypothesis shape_at : List.nth_error (aam_shape a) k = Some sm.
    Hypothesis app_at : List.nth_error (aam_app a) k = Some am.
    Hypothesis patch_at : List.nth_error (aam_patch a) k = Some ps.

    Lemma weighs (U : lmodType F) (m : pca U) w :
      accepted m w -> pca_instance m (weights_or_zero w) = Ok (weighed m w).
    Proof. by case: w => [w|] /=; [exact: Instances.instance_ok|exact: Instances.instance_none]. Qed.

    Lemma refuses (U : lmodType F) (m : pca U) w :
      ~ accepted m w -> pca_instance m (weights_or_zero w) = Err ValueError.
    Proof.
      by case: w => [w|] /= /negP; rewrite -ltnNge => lt; apply: Instances.instance_err.
    Qed.

    Theorem c87_aam_instance ws wa :
      accepted sm ws -> accepted am wa ->
      match aam_kind a with
      | Holistic => aam_instance a ws wa i = Ok (Warped (weighed am wa) (p_mean am) (weighed sm ws) None)
      | Masked =>
          aam_instance a ws wa i =
          Ok (Warped (weighed am wa) (p_mean am) (weighed sm ws) (Some (OneShape ps)))
      | LinearKind | LinearMaskedKind => aam_instance a ws wa i = Err NotImplementedError
      | PatchKind => aam_instance a ws wa i = Ok (Both (weighed sm ws) (weighed am wa))
      end.
    Proof.
      move=> Hs Ha; have [es ea] := same_scale apps scale shape_at app_at.
      have [_ ep] := same_scale patches scale shape_at patch_at.
      rewrite /aam_instance es; cbn [bind]; rewrite ea; cbn [bind]; rewrite (weighs Hs); cbn [bind].
      rewrite (weighs Ha); cbn [bind]; rewrite /aam_instance_at ea ep.
      by case: (aam_kind a).
    Qed.

    Theorem c87_aam_too_many ws wa :
      ~ accepted sm ws \/ ~ accepted am wa -> aam_instance a ws wa i = Err ValueError.
    Proof.
      have [es ea] := same_scale apps scale shape_at app_at.
      rewrite /aam_instance es; cbn [bind]; rewrite ea; cbn [bind].
      case=> H; first by rewrite (refuses H).
      rewrite (refuses H); case e: (pca_instance _ _) => [s|e'] //=.
      by move: e; rewrite /pca_instance; case: ifP => // _ [<-].
    Qed.

    Definition shown : Prop := match aam_kind a with LinearKind | LinearMaskedKind => False | _ => True end.

    Lemma shows s t : shown -> exists2 x, aam_instance_at a i s t = Ok x & displays x s t.
    Proof.
      have [es ea] := same_scale apps scale shape_at app_at.
      have [_ ep] := same_scale patches scale shape_at patch_at.
      rewrite /shown /aam_instance_at ea ep; case: (aam_kind a) => // _.
      - by exists (Warped t (p_mean am) s None).
      - by exists (Warped t (p_mean am) s (Some (OneShape ps))).
      - by exists (Both s t).
    Qed.

    Lemma shows_inv s t x : aam_instance_at a i s t = Ok x -> displays x s t.
    Proof.
      have [es ea] := same_scale apps scale shape_at app_at.
      have [_ ep] := same_scale patches scale shape_at patch_at.
      by rewrite /aam_instance_at ea ep; case: (aam_kind a) => //= [[<-]|[<-]|[<-]].
    Qed.

    (** Whatever is drawn belongs to the model. *)
    Theorem c87_aam_random_sound r1 r2 x :
      source r1 -> source r2 -> aam_random a r1 r2 i = Ok x ->
      exists s t, displays x s t /\ member sm (used sm) s /\ member am (used sm) t.
    Proof.
      move=> s1 s2; have [es ea] := same_scale apps scale shape_at app_at.
      rewrite /aam_random es; cbn [bind]; rewrite ea; cbn [bind]; rewrite -Instances.usedE.
      rewrite Instances.instance_ok ?s1 //; cbn [bind].
      case: (leqP (used sm) (used am)) => [le|lt]; last by rewrite Instances.instance_err ?s2.
      rewrite Instances.instance_ok ?s2 //; cbn [bind] => /shows_inv d.
      exists (deviates sm (r1 (used sm))), (deviates am (r2 (used sm))).
      by split=> //; split; apply: Instances.draw_member.
    Qed.

    (** With more shape than appearance components in use, no instance can be drawn. *)
    Theorem c87_aam_random_raises r1 r2 :
      source r1 -> source r2 -> (used am < used sm)%N -> aam_random a r1 r2 i = Err ValueError.
    Proof.
      move=> s1 s2 lt; have [es ea] := same_scale apps scale shape_at app_at.
      rewrite /aam_random es; cbn [bind]; rewrite ea; cbn [bind]; rewrite -Instances.usedE.
      by rewrite Instances.instance_ok ?s1 //; cbn [bind]; rewrite Instances.instance_err ?s2.
    Qed.

    (** Every member of both models can be drawn exactly when the two use the same number of components. *)
    Theorem c87_aam_random_covers_iff :
      shown -> varied sm -> varied am -> independent am ->
      ((forall s t, member sm (used sm) s -> member am (used am) t ->
        exists r1 r2 x, source r1 /\ source r2 /\ aam_random a r1 r2 i = Ok x /\ displays x s t)
       <-> used sm = used am).
    Proof.
      move=> sh vs va ind; have [es ea] := same_scale apps scale shape_at app_at; split=> [cov|eq s t ms mt].
        case: (ltngtP (used sm) (used am)) => // lt; exfalso; last first.
          have [r1 [r2 [x [s1 [s2 [e _]]]]]] := cov _ _ (Instances.member_mean sm _) (Instances.member_mean am _).
          by move: e; rewrite (c87_aam_random_raises s1 s2 lt).
        have [t [mt nt]] := @Instances.member_short F W am _ ind lt.
        have [r1 [r2 [x [s1 [s2 [e d]]]]]] := cov _ _ (Instances.member_mean sm _) mt.
        have [s' [t' [d' [_ mt']]]] := @c87_aam_random_sound r1 r2 x s1 s2 e.
        by apply: nt; rewrite (displays_texture d d').
      rewrite -eq in mt.
      have [w1 z1 e1] := Instances.member_draw vs (leqnn _) ms.
      have le : (used sm <= used am)%N by rewrite eq.
      have [w2 z2 e2] := Instances.member_draw va le mt.
      have [x ex d] := shows s t sh.
      exists (Instances.const_source w1), (Instances.const_source w2), x.
      split; first exact: Instances.const_source_source.
      split; first exact: Instances.const_source_source.
      split=> //; rewrite /aam_random es; cbn [bind]; rewrite ea; cbn [bind]; rewrite -Instances.usedE.
      rewrite (Instances.const_source_at z1) e1; cbn [bind].
      by rewrite (Instances.const_source_at z2) e2.
    Qed.
  End Aam.

  Section Atm.
    Variables (V : lmodType F) (W : Type).
    Variables (a : atm V W) (i : Z) (k : nat) (sm : pca V) (t : W).
    Hypothesis temps : size (atm_templates a) = size (atm_shape a).
    Hypothesis scale : names_scale (size (atm_shape a)) i k.
    Hypothesis shape_at : List.nth_error (atm_shape a) k = Some sm.
    Hypothesis temp_at : List.nth_error (atm_templates a) k = Some t.

    Theorem c87_atm_instance ws :
      match atm_kind a with
      | Holistic => accepted sm ws -> atm_instance a ws i = Ok (Warped t t (weighed sm ws) None)
      | Masked =>
          accepted sm ws ->
          atm_instance a ws i = Ok (Warped t t (weighed sm ws) (Some (AllShapes (atm_patch a))))
      | LinearKind | LinearMaskedKind => accepted sm ws -> atm_instance a ws i = Err NotImplementedError
      | PatchKind => accepted sm ws -> atm_instance a ws i = Ok (Both (weighed sm ws) t)
      end /\ (~ accepted sm ws -> atm_instance a ws i = Err ValueError).
    Proof.
      have [es et] := same_scale temps scale shape_at temp_at.
      rewrite /atm_instance es; cbn [bind]; rewrite et; cbn [bind]; split; last by move=> /refuses ->.
      by case e: (atm_kind a) => /weighs ->; cbn [bind]; rewrite /atm_instance_at e.
    Qed.

    (** Drawing never fails and reaches exactly the members of the shape model. *)
    Theorem c87_atm_random :
      match atm_kind a with LinearKind | LinearMaskedKind => False | _ => True end -> varied sm ->
      (forall r, source r -> exists x s, atm_random a r i = Ok x /\ displays x s t /\ member sm (used sm) s) /\
      (forall s, member sm (used sm) s -> exists r x, source r /\ atm_random a r i = Ok x /\ displays x s t).
    Proof.
      move=> sh vs; have [es et] := same_scale temps scale shape_at temp_at.
      have shows s : exists2 x, atm_instance_at a s t = Ok x & displays x s t.
        rewrite /atm_instance_at; case: (atm_kind a) sh => // _; eexists; try reflexivity; by split.
      rewrite /atm_random es; cbn [bind]; rewrite et; cbn [bind]; rewrite -Instances.usedE; split=> [r sr|s ms].
        rewrite Instances.instance_ok ?sr //; cbn [bind].
        have [x e d] := shows (deviates sm (r (used sm))); exists x, (deviates sm (r (used sm))).
        by split=> //; split=> //; apply: Instances.draw_member.
      have [w z e] := Instances.member_draw vs (leqnn _) ms; have [x ex d] := shows s.
      exists (Instances.const_source w), x; split; first exact: Instances.const_source_source.
      by rewrite (Instances.const_source_at z) e.
    Qed.
  End Atm.

  Section Aps.
    Variables (V : lmodType F) (G : Type).
    Variables (a : aps V G) (i : Z) (k : nat) (sm : pca V) (g : G).
    Hypothesis graphs : size (aps_graphs a) = size (aps_shape a).
    Hypothesis scale : names_scale (size (aps_shape a)) i k.
    Hypothesis shape_at : List.nth_error (aps_shape a) k = Some sm.
    Hypothesis graph_at : List.nth_error (aps_graphs a) k = Some g.

    Theorem c87_aps_instance ws (as_graph : bool) :
      (accepted sm ws -> aps_instance a ws i as_graph = Ok (weighed sm ws, if as_graph then Some g else None)) /\
      (~ accepted sm ws -> aps_instance a ws i as_graph = Err ValueError).
    Proof.
      have [es eg] := same_scale graphs scale shape_at graph_at.
      rewrite /aps_instance es; cbn [bind]; split=> [/weighs -> |/refuses -> //]; cbn [bind].
      by case: as_graph; rewrite ?eg.
    Qed.

    Theorem c87_aps_random (as_graph : bool) :
      varied sm ->
      (forall r, source r -> exists s, aps_random a r i as_graph = Ok (s, if as_graph then Some g else None) /\
                                  member sm (used sm) s) /\
      (forall s, member sm (used sm) s -> exists r, source r /\
                aps_random a r i as_graph = Ok (s, if as_graph then Some g else None)).
    Proof.
      move=> vs; have [es eg] := same_scale graphs scale shape_at graph_at.
      rewrite /aps_random es; cbn [bind]; rewrite -Instances.usedE; split=> [r sr|s ms].
        exists (deviates sm (r (used sm))); split; last exact: Instances.draw_member.
        by rewrite (proj1 (c87_aps_instance (Some (r (used sm))) as_graph)) //= sr.
      have [w z e] := Instances.member_draw vs (leqnn _) ms.
      exists (Instances.const_source w); split; first exact: Instances.const_source_source.
      rewrite /aps_instance es; cbn [bind]; rewrite (Instances.const_source_at z) /= e; cbn [bind].
      by case: as_graph; rewrite ?eg.
    Qed.
  End Aps.

  (** Shape instances of constrained local models. *)
  Theorem c87_shape_instance (V : lmodType F) (models : seq (pca V)) i k sm ws :
    names_scale (size models) i k -> List.nth_error models k = Some sm ->
    (accepted sm ws -> shape_instance models ws i = Ok (weighed sm ws)) /\
    (~ accepted sm ws -> shape_instance models ws i = Err ValueError).
  Proof.
    move=> nm e; rewrite /shape_instance (@PyIndex.py_at_names _ models i k sm nm e); cbn [bind].
    by split=> [/weighs|/refuses].
  Qed.

  (** The default index names the last scale. *)
  Theorem c87_default_is_last (n : nat) k : names_scale n (-1) k <-> k.+1 = n.
  Proof. exact: PyIndex.last_scale. Qed.

  (** Missing weights are zeros. *)
  Theorem c87_padding (V : lmodType F) (m : pca V) w n :
    (size w + n <= used m)%N -> pca_instance m (w ++ nseq n 0) = pca_instance m w.
  Proof.
    move=> le; rewrite /pca_instance -Instances.usedE size_cat size_nseq le (leq_trans (leq_addr _ _) le).
    congr (Ok (_ + _)); apply: eq_bigr => i _; rewrite nth_cat; case: ltnP => // ge.
    by rewrite [nth 0 w i]nth_default // nth_nseq if_same.
  Qed.

  (** *** Findings *)

  (** A shape model with one component, a texture model with two, one scale. *)
  Definition line_model : pca [lmodType F of F^o] := Pca (0 : F^o) [:: (1, 1 : F^o)] 1.
  Definition plane_model : pca [lmodType F of 'rV[F]_2] :=
    Pca 0 [:: (1, delta_mx 0 0); (1, delta_mx 0 1)] 2.
  Definition textured : aam _ _ := Aam Holistic [:: line_model] [:: plane_model] [:: (17, 17)%N].
  Definition shaped : aam _ _ := Aam Holistic [:: plane_model] [:: line_model] [:: (17, 17)%N].

  Lemma line_varied : varied line_model.
  Proof. by case=> //= _; rewrite /ev /= ltr01. Qed.
  Lemma plane_varied : varied plane_model.
  Proof. by case=> [|[|]] //= _; rewrite /ev /= ltr01. Qed.
  Lemma plane_independent : independent plane_model.
  Proof.
    case=> [|x [|y []]] // _; rewrite /used /= !big_ord_recl big_ord0 /= /comp /= addr0 => /matrixP z.
    have := z 0 0; have := z 0 1; rewrite !mxE !eqxx /= !mulr0 !mulr1 add0r addr0 => -> ->.
    by case=> [|[|[|j]]].
  Qed.

  (** Not every instance of an AAM can be drawn: the appearance weights drawn are as many as the shape model
      has components. *)
  Theorem c87_aam_random_refuted :
    exists s t, member line_model (used line_model) s /\ member plane_model (used plane_model) t /\
    forall r1 r2 x, source r1 -> source r2 -> aam_random textured r1 r2 (-1) = Ok x -> ~ displays x s t.
  Proof.
    have [t [mt nt]] := @Instances.member_short F _ plane_model 1 plane_independent isT.
    exists (p_mean line_model), t; split; first exact: Instances.member_mean.
    split=> // r1 r2 x s1 s2 e d.
    have [s' [t' [d' [_ mt']]]] := @c87_aam_random_sound _ _ textured (Z.neg xH) 0 line_model plane_model (17, 17)%N
      erefl erefl (conj (le_n 1) (or_intror erefl)) erefl erefl erefl r1 r2 x s1 s2 e.
    by apply: nt; rewrite (displays_texture d d').
  Qed.

  (** And with more shape components than appearance components none can. *)
  Theorem c87_aam_random_raises_refuted :
    forall r1 r2, source r1 -> source r2 -> aam_random shaped r1 r2 (-1) = Err ValueError.
  Proof.
    move=> r1 r2 s1 s2.
    exact: (@c87_aam_random_raises _ _ shaped (Z.neg xH) 0 plane_model line_model
      erefl (conj (le_n 1) (or_intror erefl)) erefl erefl r1 r2 s1 s2).
  Qed.

  (** The reference frame of a masked ATM's instance is not built with the patch shape of its scale. *)
  Definition masked2 : atm [lmodType F of F^o] unit :=
    Atm Masked [:: line_model; line_model] [:: tt; tt] [:: (17, 17); (33, 33)]%N.
  Theorem c87_masked_atm_patch_refuted :
    exists x, atm_instance masked2 None (-1) = Ok x /\
    match x with Warped _ _ _ p => p <> Some (OneShape (33, 33)%N) | Both _ _ => False end.
  Proof.
    eexists; split; first exact: (proj1 (@c87_atm_instance _ _ masked2 (Z.neg xH) 1 line_model tt erefl
      (conj (le_n 2) (or_intror erefl)) erefl erefl None) isT).
    by [].
  Qed.

  (** A masked AAM with the same options uses the one of the scale. *)
  Example c87_masked_aam_ex :
    aam_instance (Aam Masked [:: line_model; line_model] [:: plane_model; plane_model] [:: (17, 17); (33, 33)]%N)
      (Some [:: 1 + 1]) None (-1) =
    Ok (Warped (0 : 'rV[F]_2) 0 (deviates line_model [:: 1 + 1]) (Some (OneShape (33, 33)%N))).
  Proof.
    exact: (@c87_aam_instance _ _ (Aam Masked [:: line_model; line_model] [:: plane_model; plane_model]
      [:: (17, 17); (33, 33)]%N) (Z.neg xH) 1 line_model plane_model (33, 33)%N erefl erefl
      (conj (le_n 2) (or_intror erefl)) erefl erefl erefl (Some [:: 1 + 1]) None isT isT).
  Qed.

  (** The hypotheses of the covering theorems are met. *)
  Example c87_covers_ex :
    let a := Aam Holistic [:: line_model] [:: line_model] [:: (17, 17)%N] in
    forall s t : F^o, exists r1 r2 x, source r1 /\ source r2 /\ aam_random a r1 r2 (-1) = Ok x /\ displays x s t.
  Proof.
    move=> a s t; have ind : independent line_model.
      case=> [|x []] // _; rewrite /used /= big_ord_recl big_ord0 /= /comp /= addr0 => z.
      by move: z; rewrite /GRing.scale /= mulr1 => ->; case=> [|[|j]].
    have all u : member line_model (used line_model) u.
      exists [:: u : F]; split=> //; rewrite /used /= big_ord_recl big_ord0 /= /comp /= add0r addr0.
      by rewrite /GRing.scale /= mulr1.
    by apply: (proj2 (@c87_aam_random_covers_iff _ _ a (Z.neg xH) 0 line_model line_model (17, 17)%N
      erefl erefl (conj (le_n 1) (or_intror erefl)) erefl erefl erefl I line_varied line_varied ind) erefl).
  Qed.
End Props.

Print Assumptions c87_aam_instance.
Print Assumptions c87_aam_too_many.
Print Assumptions c87_aam_random_sound.
Print Assumptions c87_aam_random_raises.
Print Assumptions c87_aam_random_covers_iff.
Print Assumptions c87_atm_instance.
Print Assumptions c87_atm_random.
Print Assumptions c87_aps_instance.
Print Assumptions c87_aps_random.
Print Assumptions c87_shape_instance.
Print Assumptions c87_default_is_last.
Print Assumptions c87_padding.
Print Assumptions c87_aam_random_refuted.
Print Assumptions c87_aam_random_raises_refuted.
Print Assumptions c87_masked_atm_patch_refuted.
