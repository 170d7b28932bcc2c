(** C98: every expert is trained at, and applied at, its own landmark.  C99: with the default patch normalisation the
    experts ignore brightness and contrast. *)
From Coq Require Import List Arith Bool ZArith Reals Lra Lia.
From Verif.Model Require Import Py Result Base Ensemble.
From Verif.Spec Require Import Ensemble.
From Verif.Proofs Require Ensemble.
Import ListNotations.
Local Open Scope nat_scope.

Section C98.
  Context {Img Pt Off F FF A B Resp : Type}.
  Variable extract : Img -> Pt -> nat * nat -> Off -> list (list R).
  Variable cf : list (list (list R)) -> res (F * A * B).
  Variable icf : A -> B -> nat -> list (list (list R)) -> res (F * A * B).
  Variable padded : F -> res FF.
  Variable respond : list (list R) -> FF -> res Resp.
  Variable o : settings (Off := Off).
  Notation train := (train extract cf icf padded o).
  Notation increment := (increment extract cf icf padded o).
  Notation predict_response := (predict_response extract respond o).

  Lemma expert_depends n n' old old' images shapes images' shapes' k : n = n' ->
    Forall2 (fun x y => fst x = fst y /\ agree_at k (snd x) (snd y)) (combine images shapes) (combine images' shapes') ->
    match old, old' with
    | Some es, Some es' => agree_at k es es'
    | None, None => True
    | _, _ => False
    end ->
    train_expert extract cf icf padded o n old images shapes k = train_expert extract cf icf padded o n' old' images' shapes' k.
  Proof.
    intros <- H Ho. unfold train_expert. set (f := fun im_s : Img * list Pt => _).
    rewrite (Proofs.Ensemble.mapM_rel f f (combine images shapes) (combine images' shapes')).
    - destruct (mapM f _) as [patches|]; [cbn|reflexivity]. destruct old as [es|], old' as [es'|]; try contradiction; [|reflexivity].
      unfold agree_at in Ho. unfold nth_res. rewrite Ho. reflexivity.
    - induction H as [|[im s] [im' s'] l l' (Ei & Es) _ IH]; constructor; [|exact IH]. cbn in Ei, Es. unfold f. cbn. unfold nth_res. unfold agree_at in Es. now rewrite Ei, Es.
  Qed.
  Lemma loop_nth n old images shapes es k : train_loop extract cf icf padded o n old images shapes = Ok es ->
    (exists s0, nth_error shapes 0 = Some s0 /\ length es = length s0) /\
    (k < length es -> exists x, train_expert extract cf icf padded o n old images shapes k = Ok x /\ nth_error es k = Some x).
  Proof.
    unfold train_loop. unfold nth_res at 1. destruct (nth_error shapes 0) as [s0|] eqn:E0; [|discriminate]. cbn. intros E.
    pose proof (Proofs.Ensemble.mapM_length _ _ _ E) as L. rewrite seq_length in L. split; [now exists s0|].
    intros Hk. destruct (Proofs.Ensemble.mapM_nth _ _ _ k k E) as (y & Ey & Hy); [|now exists y].
    rewrite L in Hk. rewrite (nth_error_nth' _ 0) by (now rewrite seq_length). now rewrite seq_nth.
  Qed.

  (** One expert per point of the first shape; what it becomes depends on the points of its number only. *)
  Theorem c98_train images shapes e : train images shapes = Ok e ->
    (exists s0, nth_error shapes 0 = Some s0 /\ length (experts e) = length s0) /\
    (forall images' shapes' e' k, train images' shapes' = Ok e' -> k < length (experts e) -> k < length (experts e') ->
       Forall2 (fun x y => fst x = fst y /\ agree_at k (snd x) (snd y)) (combine images shapes) (combine images' shapes') ->
       agree_at k (experts e) (experts e')).
  Proof.
    unfold Ensemble.train. intros E. destruct (train_loop extract cf icf padded o (length images) None images shapes) as [es|] eqn:El; [|discriminate E].
    cbn in E. injection E as <-. cbn. split; [exact (proj1 (loop_nth _ _ _ _ _ 0 El))|].
    intros images' shapes' e' k E' Hk Hk' H.
    destruct (train_loop extract cf icf padded o (length images') None images' shapes') as [es'|] eqn:El'; [|discriminate E'].
    cbn in E'. injection E' as <-. cbn in Hk' |- *. unfold agree_at.
    destruct (proj2 (loop_nth _ _ _ _ _ k El) Hk) as (x & Ex & ->). destruct (proj2 (loop_nth _ _ _ _ _ k El') Hk') as (x' & Ex' & ->).
    assert (T : forall n n', train_expert extract cf icf padded o n None images shapes k = train_expert extract cf icf padded o n' None images' shapes' k).
    { intros n n'. exact (expert_depends n n None None images shapes images' shapes' k eq_refl H I). }
    rewrite (T _ (length images')) in Ex. congruence.
  Qed.

  (** A shape with fewer points than the first is noticed. *)
  Theorem c98_short_shape images shapes s0 im s : nth_error shapes 0 = Some s0 -> In (im, s) (combine images shapes) -> length s < length s0 ->
    exists err, train images shapes = Err err.
  Proof.
    intros E0 Hin L. unfold Ensemble.train, train_loop, nth_res. rewrite E0. cbn [bind].
    destruct (Proofs.Ensemble.mapM_err (train_expert extract cf icf padded o (length images) None images shapes) (seq 0 (length s0)) (length s) IndexError) as (e' & ->).
    - apply in_seq. lia.
    - unfold train_expert. set (f := fun im_s : Img * list Pt => _).
      assert (X : forall l, In (im, s) l -> mapM f l = Err IndexError).
      { induction l as [|[im1 s1] l IH]; intros H; [destruct H|]. cbn. unfold f at 1. cbn. unfold nth_res.
        destruct (nth_error s1 (length s)) as [p|] eqn:Ep; [|reflexivity]. cbn. destruct H as [H|H].
        - injection H as -> ->. assert (nth_error s (length s) = None) by (apply nth_error_None; lia). congruence.
        - now rewrite (IH H). }
      rewrite (X _ Hin). reflexivity.
    - cbn. eauto.
  Qed.

  (** Incrementing: the same, from the expert's own statistics; and the number of experts is that of the new points, never
      more than before. *)
  Theorem c98_increment e images shapes e1 : increment e images shapes = (e1, Ok tt) ->
    n_images e1 = n_images e + length images /\
    (exists s0, nth_error shapes 0 = Some s0 /\ length (experts e1) = length s0) /\ length (experts e1) <= length (experts e) /\
    (forall e' images' shapes' e1' k, increment e' images' shapes' = (e1', Ok tt) -> k < length (experts e1) -> k < length (experts e1') ->
       n_images e = n_images e' -> length images = length images' -> agree_at k (experts e) (experts e') ->
       Forall2 (fun x y => fst x = fst y /\ agree_at k (snd x) (snd y)) (combine images shapes) (combine images' shapes') ->
       agree_at k (experts e1) (experts e1')).
  Proof.
    unfold Ensemble.increment. intros E. destruct (train_loop extract cf icf padded o _ (Some (experts e)) images shapes) as [es|] eqn:El; [|discriminate E].
    injection E as <-. cbn. split; [reflexivity|]. split; [exact (proj1 (loop_nth _ _ _ _ _ 0 El))|]. split.
    - destruct (Nat.le_gt_cases (length es) (length (experts e))) as [L|L]; [exact L|].
      destruct (proj2 (loop_nth _ _ _ _ _ (length (experts e)) El) L) as (x & Ex & _). exfalso. unfold train_expert in Ex.
      destruct (mapM _ _) as [patches|]; [|discriminate Ex]. cbn in Ex. unfold nth_res in Ex.
      rewrite (proj2 (nth_error_None (experts e) (length (experts e))) (le_n _)) in Ex. discriminate Ex.
    - intros e' images' shapes' e1' k E' Hk Hk' Hn Hl Ha H.
      destruct (train_loop extract cf icf padded o _ (Some (experts e')) images' shapes') as [es'|] eqn:El'; [|discriminate E'].
      injection E' as <-. cbn in Hk' |- *. unfold agree_at.
      destruct (proj2 (loop_nth _ _ _ _ _ k El) Hk) as (x & Ex & ->). destruct (proj2 (loop_nth _ _ _ _ _ k El') Hk') as (x' & Ex' & ->).
      rewrite (expert_depends _ (n_images e' + length images') (Some (experts e)) (Some (experts e')) images shapes images' shapes' k) in Ex; [congruence| |exact H|exact Ha].
      now rewrite Hn, Hl.
  Qed.

  (** The response of an expert: one per point, and it depends on the point and the expert of its number only. *)
  Variable each_patch : list (list R) -> list (list R).
  Hypothesis patchwise : norm4 o = map each_patch.
  Lemma predict_nth (e : ensemble (FF := FF) (A := A) (B := B)) image shape rs : predict_response e image shape = Ok rs -> length shape = length (experts e) ->
    length rs = length shape /\ forall k p x, nth_error shape k = Some p -> nth_error (experts e) k = Some x ->
      exists r, nth_error rs k = Some r /\
        respond (each_patch (concat (map (extract image p (patch_shape o)) (sample_offsets o)))) (fst (fst x)) = Ok r.
  Proof.
    intros E L. set (g := fun p => each_patch (concat (map (extract image p (patch_shape o)) (sample_offsets o)))).
    assert (EP : extract_patches extract o image shape = map g shape).
    { unfold extract_patches. rewrite patchwise, map_map. reflexivity. }
    assert (X : mapM (fun pf => respond (fst pf) (snd pf)) (combine (map g shape) (map (fun x => fst (fst x)) (experts e))) = Ok rs).
    { unfold Ensemble.predict_response in E. rewrite EP in E. destruct shape as [|p [|p2 shape]]; destruct (experts e) as [|x [|x2 es]]; try discriminate L.
      - cbn in E |- *. exact E.
      - cbn in E |- *. exact E.
      - cbn [map combine fst snd] in E |- *. rewrite (proj2 (Nat.eqb_eq _ _)) in E; [exact E|]. cbn in L |- *. rewrite !map_length. lia. }
    split.
    - rewrite (Proofs.Ensemble.mapM_length _ _ _ X), combine_length, !map_length. lia.
    - intros k p x Hp Hx.
      assert (C : nth_error (combine (map g shape) (map (fun x => fst (fst x)) (experts e))) k = Some (g p, fst (fst x))).
      { clear -Hp Hx. revert k Hp Hx. generalize (experts e) as es. induction shape as [|q shape IH]; intros es [|k] Hp Hx; try discriminate Hp; destruct es as [|y es]; try discriminate Hx.
        - injection Hp as ->. injection Hx as ->. reflexivity.
        - cbn in *. now apply IH. }
      destruct (Proofs.Ensemble.mapM_nth _ _ _ k _ X C) as (r & Er & Hr). now exists r.
  Qed.
  Theorem c98_response (e : ensemble (FF := FF) (A := A) (B := B)) image shape rs : predict_response e image shape = Ok rs -> length shape = length (experts e) ->
    length rs = length shape /\
    (forall (e' : ensemble (FF := FF) (A := A) (B := B)) shape' rs' k, predict_response e' image shape' = Ok rs' -> length shape' = length (experts e') -> k < length shape -> k < length shape' ->
       agree_at k shape shape' -> agree_at k (experts e) (experts e') -> agree_at k rs rs').
  Proof.
    intros E L. destruct (predict_nth e image shape rs E L) as (Lr & N). split; [exact Lr|].
    intros e' shape' rs' k E' L' Hk Hk' Hs He. destruct (predict_nth e' image shape' rs' E' L') as (Lr' & N').
    destruct (nth_error shape k) as [p|] eqn:Ep; [|apply nth_error_None in Ep; lia].
    destruct (nth_error (experts e) k) as [x|] eqn:Ex; [|apply nth_error_None in Ex; lia].
    unfold agree_at in *. destruct (N k p x Ep Ex) as (r & -> & R). destruct (N' k p x) as (r' & -> & R'); congruence.
  Qed.
  (** Different numbers of points and experts are refused, unless one of them is 1. *)
  Theorem c98_mismatch (e : ensemble (FF := FF) (A := A) (B := B)) image shape : length shape <> length (experts e) -> length shape <> 1 -> length (experts e) <> 1 ->
    predict_response e image shape = Err ValueError.
  Proof.
    intros N N1 N2. unfold Ensemble.predict_response.
    assert (L : length (extract_patches extract o image shape) = length shape) by (unfold extract_patches; now rewrite patchwise, !map_length).
    destruct (extract_patches extract o image shape) as [|p [|p2 ps]]; cbn in L; [| congruence |];
      destruct (experts e) as [|x [|x2 es]]; cbn in *; try congruence; try reflexivity.
    - destruct (Nat.eqb_spec (length ps) (length (map (fun x => fst (fst x)) es))) as [Y|_]; [|reflexivity]. rewrite map_length in Y. lia.
  Qed.
End C98.

(** The response that the filters are trained for is greatest at the pixel of the landmark, and only there. *)
Theorem c98_desired_response h w cov t : 0 < h -> 0 < w ->
  generate_gaussian_response (h, w) cov = Ok t -> strict_peak t (h / 2) (w / 2).
Proof. rewrite <- !Nat.div2_div. apply Proofs.Ensemble.response_peak. Qed.

(** What the default normalisation does to the windows of a fit, whatever their channels: every window gets one shift and one
    positive scale, the same for all its channels, after which its values have mean 0 and Euclidean norm 1 (or are all 0). *)
Theorem c99_window_values (windows : list (list (list R))) : Forall (fun w => concat w <> []) windows ->
  Forall2 (fun w w' => exists m d, (0 < d)%R /\ w' = map (map (fun x => ((x - m) / d)%R)) w /\
    fold_right Rplus 0%R (concat w') = 0%R /\
    (fold_right Rplus 0%R (map (fun x => (x ^ 2)%R) (concat w')) = 1%R \/ Forall (fun x => x = 0%R) (concat w')))
    windows (channel_normalize_norm4 windows).
Proof.
  intros H. unfold channel_normalize_norm4. induction H as [|w r N _ IH]; [constructor|]. cbn [map]. constructor; [|exact IH].
  destruct (Proofs.Ensemble.normalise_affine (concat w) N) as (m & d & D & E & Z & Q). exists m, d. split; [exact D|].
  assert (W : split_as w (normalise (concat w)) = map (map (fun x => ((x - m) / d)%R)) w) by (rewrite E; apply Proofs.Ensemble.split_as_map).
  assert (C : concat (split_as w (normalise (concat w))) = normalise (concat w)) by (rewrite W, E; symmetry; apply concat_map).
  split; [exact W|]. rewrite C.
  assert (Sum : forall (f : R -> R) l, fold_right Rplus 0%R (map f l) = sumR f l) by (intros f l; induction l as [|x l IHl]; [reflexivity|]; cbn; now rewrite IHl).
  split; [|now rewrite Sum]. now rewrite <- (map_id (normalise (concat w))), Sum.
Qed.
Print Assumptions c99_window_values.

Section C99.
  Context {Img Pt Off F FF A B Resp : Type}.
  Variable extract : Img -> Pt -> nat * nat -> Off -> list (list R).
  Variable cf : list (list (list R)) -> res (F * A * B).
  Variable icf : A -> B -> nat -> list (list (list R)) -> res (F * A * B).
  Variable padded : F -> res FF.
  Variable respond : list (list R) -> FF -> res Resp.
  Variables (patch_shape context_shape : nat * nat) (mask : bool) (offsets : list Off).
  Notation o := (mk_settings patch_shape context_shape channel_normalize_norm3 channel_normalize_norm4 mask offsets).

  Lemma patch_recoloured im im' p : (forall off, channels_recoloured (extract im p context_shape off) (extract im' p context_shape off)) ->
    extract_patch extract o im' p = extract_patch extract o im p.
  Proof.
    intros H. unfold extract_patch. cbn -[channel_normalize_norm3 generate_cosine_mask].
    rewrite (Proofs.Ensemble.channels_norm3 (concat (map (extract im p context_shape) offsets)) (concat (map (extract im' p context_shape) offsets))); [reflexivity|].
    clear -H. induction offsets as [|off r IH]; cbn; [constructor|]. apply Forall2_app; [apply H|exact IH].
  Qed.
  Lemma loop_recoloured n old images images' shapes :
    Forall2 (fun im im' => forall p off, channels_recoloured (extract im p context_shape off) (extract im' p context_shape off)) images images' ->
    train_loop extract cf icf padded o n old images' shapes = train_loop extract cf icf padded o n old images shapes.
  Proof.
    intros H. unfold train_loop. destruct (nth_res shapes 0) as [s0|]; [cbn|reflexivity]. apply Proofs.Ensemble.mapM_ext. intros i _.
    unfold train_expert. erewrite Proofs.Ensemble.mapM_rel with (l' := combine images shapes); [reflexivity|].
    clear -H. revert shapes. induction H as [|im im' images images' H _ IH]; intros [|s shapes]; try constructor; [|apply IH].
    cbn. unfold nth_res. destruct (nth_error s i) as [p|]; [cbn|reflexivity]. f_equal. apply patch_recoloured. intros off. apply H.
  Qed.

  (** Training: every image, and every channel of it, may have a brightness and a contrast of its own. *)
  Theorem c99_train images images' shapes :
    Forall2 (fun im im' => forall p off, channels_recoloured (extract im p context_shape off) (extract im' p context_shape off)) images images' ->
    train extract cf icf padded o images' shapes = train extract cf icf padded o images shapes /\
    forall e, increment extract cf icf padded o e images' shapes = increment extract cf icf padded o e images shapes.
  Proof.
    intros H. assert (L : length images' = length images) by (clear -H; induction H; cbn; congruence). split.
    - unfold train. now rewrite L, (loop_recoloured _ _ images).
    - intros e. unfold increment. now rewrite L, (loop_recoloured _ _ images).
  Qed.

  (** Fitting: the window of every landmark may have a brightness and a contrast of its own, the same for its channels. *)
  Theorem c99_fit_partial (e : ensemble (FF := FF) (A := A) (B := B)) im im' shape :
    (forall p, In p shape -> exists a b, (0 < a)%R /\ forall off, extract im' p patch_shape off = map (recoloured a b) (extract im p patch_shape off)) ->
    predict_response extract respond o e im' shape = predict_response extract respond o e im shape.
  Proof.
    intros H. unfold predict_response.
    assert (X : extract_patches extract o im' shape = extract_patches extract o im shape).
    { unfold extract_patches. cbn -[channel_normalize_norm4]. unfold channel_normalize_norm4. rewrite !map_map. apply map_ext_in. intros p Hp.
      destruct (H p Hp) as (a & b & Ha & E).
      assert (Y : concat (map (extract im' p patch_shape) offsets) = map (recoloured a b) (concat (map (extract im p patch_shape) offsets))).
      { rewrite concat_map, map_map. f_equal. apply map_ext. intros off. apply E. }
      rewrite Y. now apply Proofs.Ensemble.joint_norm4. }
    now rewrite X.
  Qed.
  (** With a single channel and offset a window is normalised in fitting as in training. *)
  Theorem c99_same_patch_partial im p off c : patch_shape = context_shape -> mask = false -> offsets = [off] ->
    extract im p context_shape off = [c] ->
    extract_patches extract o im [p] = [extract_patch extract o im p].
  Proof.
    intros -> -> -> E. unfold extract_patches, extract_patch. cbn -[normalise firstn]. rewrite E. cbn -[normalise firstn]. rewrite app_nil_r.
    rewrite firstn_all2; [reflexivity|]. rewrite Proofs.Ensemble.normalise_length. lia.
  Qed.
End C99.

(** With two channels it is not: in fitting the channels of a patch are normalised together, and the contrast of one of
    them changes what the experts see. *)
Definition two_channels : list (list R) := [[0; 2]; [0; 2]]%R.
Example window_values_ex : Forall (fun w => concat w <> []) [two_channels].
Proof. constructor; [discriminate|constructor]. Qed.
Definition other_contrast : list (list R) := [[0; 2]; [0; 4]]%R.
Definition see (im : bool) (_ : unit) (_ : nat * nat) (_ : unit) : list (list R) := if im then other_contrast else two_channels.
Definition plain : settings := mk_settings (1, 2) (1, 2) channel_normalize_norm3 channel_normalize_norm4 false [tt].
Lemma other_contrast_ok : channels_recoloured two_channels other_contrast.
Proof.
  repeat constructor; [exists 1%R, 0%R|exists 2%R, 0%R]; (split; [lra|]); unfold recoloured; cbn; f_equal; try lra; f_equal; lra.
Qed.
Lemma norm_sq l : (norm l * norm l = sumR (fun x => x ^ 2) l)%R.
Proof. unfold norm. apply sqrt_sqrt. apply Proofs.Ensemble.sumR_nonneg. intros. apply pow2_ge_0. Qed.
(** The first entry of a normalised list. *)
Lemma first_normalised x l : normalise (x :: l) = centre (x :: l) /\ norm (centre (x :: l)) = 0%R \/
  exists r, normalise (x :: l) = ((x - mean (x :: l)) / norm (centre (x :: l)))%R :: r /\ norm (centre (x :: l)) <> 0%R.
Proof. unfold normalise. destruct (Req_EM_T (norm (centre (x :: l))) 0) as [E|E]; [left; now split|right]. cbn. eexists. split; [reflexivity|exact E]. Qed.

Theorem c99_channels_refuted :
  (forall p off, channels_recoloured (see false p (1, 2) off) (see true p (1, 2) off)) /\
  extract_patches see plain true [tt] <> extract_patches see plain false [tt] /\
  extract_patches see plain false [tt] <> [extract_patch see plain false tt].
Proof.
  split; [intros; apply other_contrast_ok|].
  assert (M1 : mean [0; 2; 0; 4]%R = (3 / 2)%R) by (unfold mean, sumR; cbn; lra).
  assert (M2 : mean [0; 2; 0; 2]%R = 1%R) by (unfold mean, sumR; cbn; lra).
  assert (M3 : mean [0; 2]%R = 1%R) by (unfold mean, sumR; cbn; lra).
  assert (S1 : sumR (fun x => x ^ 2)%R (centre [0; 2; 0; 4]%R) = 11%R) by (unfold centre; rewrite M1; unfold sumR; cbn; lra).
  assert (S2 : sumR (fun x => x ^ 2)%R (centre [0; 2; 0; 2]%R) = 4%R) by (unfold centre; rewrite M2; unfold sumR; cbn; lra).
  assert (S3 : sumR (fun x => x ^ 2)%R (centre [0; 2]%R) = 2%R) by (unfold centre; rewrite M3; unfold sumR; cbn; lra).
  pose proof (norm_sq (centre [0; 2; 0; 4]%R)) as N1. rewrite S1 in N1.
  pose proof (norm_sq (centre [0; 2; 0; 2]%R)) as N2. rewrite S2 in N2.
  pose proof (norm_sq (centre [0; 2]%R)) as N3. rewrite S3 in N3.
  destruct (first_normalised 0 [2; 0; 4]%R) as [(_ & Z)|(r1 & E1 & Z1)]; [rewrite Z in N1; lra|].
  destruct (first_normalised 0 [2; 0; 2]%R) as [(_ & Z)|(r2 & E2 & Z2)]; [rewrite Z in N2; lra|].
  destruct (first_normalised 0 [2]%R) as [(_ & Z)|(r3 & E3 & Z3)]; [rewrite Z in N3; lra|].
  rewrite M1 in E1. rewrite M2 in E2. rewrite M3 in E3.
  assert (F1 : extract_patches see plain true [tt] = [split_as other_contrast (normalise [0; 2; 0; 4]%R)]) by reflexivity.
  assert (F2 : extract_patches see plain false [tt] = [split_as two_channels (normalise [0; 2; 0; 2]%R)]) by reflexivity.
  assert (F3 : extract_patch see plain false tt = [normalise [0; 2]%R; normalise [0; 2]%R]) by reflexivity.
  rewrite F1, F2, F3, E1, E2, E3. set (n1 := norm _) in *. set (n2 := norm (centre [0; 2; 0; 2]%R)) in *. set (n3 := norm (centre [0; 2]%R)) in *.
  clear E1 E2 E3 F1 F2 F3. clearbody n1 n2 n3.
  assert (I : forall n q : R, (n <> 0 -> n * n = q -> / n * / n * q = 1)%R) by (intros n q Hn <-; now field).
  pose proof (I n1 _ Z1 N1) as I1. pose proof (I n2 _ Z2 N2) as I2. pose proof (I n3 _ Z3 N3) as I3.
  split; intros H; apply (f_equal (fun l => nth 0 (nth 0 (nth 0 l []) []) 0%R)) in H; cbn in H; unfold Rdiv in H.
  - assert (Q : (/ n2 = 3 / 2 * / n1)%R) by lra. rewrite Q in I2. lra.
  - assert (Q : (/ n2 = / n3)%R) by lra. rewrite Q in I2. lra.
Qed.

(** *** A small world: an image is a number, a point a number, a window shows both. *)
Definition e_extract (im p : nat) (_ : nat * nat) (off : nat) : list (list R) := [[INR (im + p); INR (p * off)]; [INR p; INR im]]%R.
Definition e_settings : settings (Off := nat) := mk_settings (1, 2) (1, 2) channel_normalize_norm3 channel_normalize_norm4 false [0; 1].
Definition e_cf (X : list (list (list R))) : res (nat * nat * list (list (list R))) := Ok (length X, 7, X).
Definition e_icf (a : nat) (b : list (list (list R))) (n : nat) (X : list (list (list R))) : res (nat * nat * list (list (list R))) := Ok (n, a, b ++ X).
Definition e_train := train e_extract e_cf e_icf (fun f => Ok (f + 100)) e_settings.
Definition e_increment := increment e_extract e_cf e_icf (fun f => Ok (f + 100)) e_settings.
(** The default normalisation treats the patches one by one, as c98_response wants. *)
Example e_patchwise : norm4 e_settings = map (fun patch => split_as patch (normalise (concat patch))).
Proof. reflexivity. Qed.
(** Two images of three points; the second expert has the patches at the second points. *)
Example e_train_ok : exists e, e_train [5; 6] [[1; 2; 3]; [4; 5; 6]] = Ok e /\ length (experts e) = 3 /\
  nth_error (experts e) 1 = Some (102, 7, [extract_patch e_extract e_settings 5 2; extract_patch e_extract e_settings 6 5]).
Proof. eexists. split; [reflexivity|]. split; reflexivity. Qed.
(** The other points do not matter for it. *)
Example e_train_other : exists e e', e_train [5; 6] [[1; 2; 3]; [4; 5; 6]] = Ok e /\ e_train [5; 6] [[9; 2]; [8; 5]] = Ok e' /\
  agree_at 1 (experts e) (experts e').
Proof. do 2 eexists. split; [reflexivity|]. split; [reflexivity|]. reflexivity. Qed.
(** A second shape without third point. *)
Example e_train_short : e_train [5; 6] [[1; 2; 3]; [4; 5]] = Err IndexError.
Proof. reflexivity. Qed.
(** An increment with fewer points drops experts. *)
Example e_increment_ok : exists e e1, e_train [5; 6] [[1; 2; 3]; [4; 5; 6]] = Ok e /\ e_increment e [7] [[1; 2]] = (e1, Ok tt) /\
  length (experts e1) = 2 /\ n_images e1 = 3.
Proof. do 2 eexists. split; [reflexivity|]. split; [reflexivity|]. split; reflexivity. Qed.
Example e_predict_ok : exists e rs, e_train [5; 6] [[1; 2; 3]; [4; 5; 6]] = Ok e /\
  predict_response e_extract (fun p f => Ok (length p + f)) e_settings e 8 [3; 4; 5] = Ok rs /\ rs = [106; 106; 106].
Proof. do 2 eexists. split; [reflexivity|]. split; reflexivity. Qed.
(** The desired response of the default covariance exists. *)
Example e_desired : exists t, generate_gaussian_response (3, 4) 3 = Ok t /\ length t = 3.
Proof. unfold generate_gaussian_response. destruct (Rlt_dec 0 3) as [_|N]; [|lra]. eexists. split; reflexivity. Qed.
(** Two images of different contrast meet the hypotheses of c99_train and c99_fit_partial. *)
Definition b_extract (im : R) (p : nat) (_ : nat * nat) (_ : unit) : list (list R) := [map (fun x => im * x + 3)%R [INR p; 1; 4]%R].
Example b_recoloured : forall p off, channels_recoloured (b_extract 1 p (1, 3) off) (b_extract 2 p (1, 3) off).
Proof.
  intros p off. repeat constructor. exists 2%R, (- 3)%R. split; [lra|]. unfold recoloured. rewrite map_map. apply map_ext. intros. lra.
Qed.

Print Assumptions c98_train.
Print Assumptions c98_short_shape.
Print Assumptions c98_increment.
Print Assumptions c98_response.
Print Assumptions c98_mismatch.
Print Assumptions c98_desired_response.
Print Assumptions c99_train.
Print Assumptions c99_fit_partial.
Print Assumptions c99_same_patch_partial.
Print Assumptions c99_channels_refuted.
