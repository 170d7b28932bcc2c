(** C20, C38 (displacements), C50: errors between shapes, displacements, reference shape, over the reals. *)
From Coq Require Import String List Arith Reals Lia Lra.
From Verif.Model Require Import Py Result ErrorR.
From Verif.Spec Require Import ErrorR.
From Verif.Proofs Require Import ErrorR.
Import ListNotations.
Local Open Scope R_scope.

(** ** C20 *)
(** The values: the mean distance of corresponding points; the square root of the mean squared difference of the
    2n coordinates (so 1/sqrt 2 times the formula of the docstring, which divides by the number of points). *)
Theorem c20_values : forall s t : list (R * R), s <> [] -> length s = length t ->
  (exists e, euclidean_error s t = Ok e /\
     INR (length s) * e = fold_right (fun pq a => sqrt ((fst (fst pq) - fst (snd pq)) ^ 2 + (snd (fst pq) - snd (snd pq)) ^ 2) + a) 0 (combine s t)) /\
  (exists e, root_mean_square_error s t = Ok e /\ 0 <= e /\
     2 * INR (length s) * e ^ 2 = fold_right (fun pq a => (fst (fst pq) - fst (snd pq)) ^ 2 + (snd (fst pq) - snd (snd pq)) ^ 2 + a) 0 (combine s t)).
Proof.
  intros s t Hne H. assert (Hn : 0 < INR (length s)) by (apply INR_pos; destruct s; [congruence|cbn; lia]).
  split.
  - eexists. split; [apply euclidean_sum, H|]. transitivity (psum dist s t); [field; lra|].
    clear Hne H Hn. revert t. induction s as [|p s IH]; intros [|q t]; try reflexivity. cbn [psum combine fold_right fst snd].
    rewrite <- IH. reflexivity.
  - eexists. split; [apply rms_sum, H|]. split; [apply sqrt_pos|].
    rewrite pow2_sqrt.
    + rewrite mult_INR. change (INR 2) with (1 + 1). transitivity (psum dsq s t); [field; lra|].
      clear Hne H Hn. revert t. induction s as [|p s IH]; intros [|q t]; try reflexivity. cbn [psum combine fold_right fst snd].
      rewrite <- IH. reflexivity.
    + apply Rmult_le_pos; [apply psum_nonneg, dsq_nonneg|]. left. apply Rinv_0_lt_compat. rewrite mult_INR. change (INR 2) with (1 + 1). lra.
Qed.
Print Assumptions c20_values.

(** Both errors are distances on the shapes of n > 0 points. *)
Theorem c20_euclidean_metric : shape_metric (fun s t e => euclidean_error s t = Ok e).
Proof. exact euclidean_metric. Qed.
Print Assumptions c20_euclidean_metric.
Theorem c20_rms_metric : shape_metric (fun s t e => root_mean_square_error s t = Ok e).
Proof. exact rms_metric. Qed.
Print Assumptions c20_rms_metric.

(** A common translation or rotation changes neither, a common scaling by [k] multiplies both by |k|. *)
Theorem c20_rigid : forall (s t : list (R * R)) v a b, length s = length t -> a ^ 2 + b ^ 2 = 1 ->
  euclidean_error (translate v s) (translate v t) = euclidean_error s t /\
  root_mean_square_error (translate v s) (translate v t) = root_mean_square_error s t /\
  euclidean_error (rotate a b s) (rotate a b t) = euclidean_error s t /\
  root_mean_square_error (rotate a b s) (rotate a b t) = root_mean_square_error s t.
Proof.
  intros s t v a b H Hab. split; [apply euclidean_translate, H|]. split; [apply rms_translate, H|].
  split; [apply euclidean_rotate|apply rms_rotate]; assumption.
Qed.
Print Assumptions c20_rigid.
Theorem c20_scaling : forall (s t : list (R * R)) k, length s = length t ->
  (exists e, euclidean_error s t = Ok e /\ euclidean_error (dilate k s) (dilate k t) = Ok (Rabs k * e)) /\
  (exists e, root_mean_square_error s t = Ok e /\ root_mean_square_error (dilate k s) (dilate k t) = Ok (Rabs k * e)).
Proof. intros s t k H. split; [apply euclidean_dilate, H|apply rms_dilate, H]. Qed.
Print Assumptions c20_scaling.

(** The height and the width used by the normalisers are the extents of the bounding box. *)
Theorem c20_box : forall s : list (R * R), s <> [] -> exists h w,
  extent fst s h /\ extent snd s w /\
  bb_norm_types "area" = Some bb_area /\ bb_area s = h * w /\
  bb_norm_types "perimeter" = Some bb_perimeter /\ bb_perimeter s = 2 * (h + w) /\
  bb_norm_types "avg_edge_length" = Some bb_avg_edge_length /\ 2 * bb_avg_edge_length s = h + w /\
  bb_norm_types "diagonal" = Some bb_diagonal /\ 0 <= bb_diagonal s /\ bb_diagonal s ^ 2 = h ^ 2 + w ^ 2.
Proof.
  intros s Hne. exists (height s), (width s).
  split; [apply (range_extent fst), Hne|]. split; [apply (range_extent snd), Hne|].
  repeat (split; [reflexivity|]). split; [unfold bb_avg_edge_length; lra|]. split; [reflexivity|].
  split; [apply sqrt_pos|]. unfold bb_diagonal. rewrite pow2_sqrt; [ring|]. pose proof (pow2_ge_0 (height s)). pose proof (pow2_ge_0 (width s)). lra.
Qed.
Print Assumptions c20_box.

Definition is_error (f : list (R * R) -> list (R * R) -> res R) : Prop := f = euclidean_error \/ f = root_mean_square_error.
Definition length_like (t : string) : Prop := In t ["avg_edge_length"; "perimeter"; "diagonal"]%string.

(** Normalised by a length of the box, the errors do not change under a common translation and scaling of the
    shape, the ground truth and the normalising shape. *)
Theorem c20_normalised_invariant : forall f (s g : list (R * R)) norm_shape norm_type v k n,
  is_error f -> length_like norm_type -> length s = length g -> k <> 0 ->
  n = match norm_shape with None => g | Some x => x end -> n <> [] -> ~ (height n = 0 /\ width n = 0) ->
  let T := fun x => translate v (dilate k x) in
  exists e, bb_normalised_error f s g norm_shape norm_type = Ok e /\
    bb_normalised_error f (T s) (T g) (option_map T norm_shape) norm_type = Ok e.
Proof.
  intros f s g ns nt v k n Hf Ht Hlen Hk Hn Hne Hd T.
  assert (Hfe : exists e, f s g = Ok e /\ f (T s) (T g) = Ok (Rabs k * e)).
  { assert (HL : length (dilate k s) = length (dilate k g)) by (unfold dilate; rewrite !map_length; exact Hlen).
    unfold T. destruct Hf as [-> | ->].
    - rewrite euclidean_translate by exact HL. apply euclidean_dilate, Hlen.
    - rewrite rms_translate by exact HL. apply rms_dilate, Hlen. }
  destruct Hfe as (e & He1 & He2).
  assert (Hpos : 0 <= height n /\ 0 <= width n).
  { destruct (range_extent fst n Hne) as [Hh _]. destruct (range_extent snd n Hne) as [Hw _].
    destruct n as [|p n']; [congruence|]. specialize (Hh p p (or_introl eq_refl) (or_introl eq_refl)). specialize (Hw p p (or_introl eq_refl) (or_introl eq_refl)).
    unfold range in Hh, Hw. unfold height, width. lra. }
  assert (Hak : Rabs k <> 0) by (apply Rabs_no_R0, Hk).
  assert (Hth : height (T n) = Rabs k * height n) by (unfold T; rewrite height_translate, height_dilate; reflexivity).
  assert (Htw : width (T n) = Rabs k * width n) by (unfold T; rewrite width_translate, width_dilate; reflexivity).
  assert (HN : exists norm, bb_norm_types nt = Some norm /\ norm n <> 0 /\ norm (T n) = Rabs k * norm n).
  { destruct Ht as [<- |[<- |[<- |[]]]]; eexists; (split; [reflexivity|]).
    - unfold bb_avg_edge_length. rewrite Hth, Htw. split; [|ring]. intros E. apply Hd. split; lra.
    - unfold bb_perimeter. rewrite Hth, Htw. split; [|ring]. intros E. apply Hd. split; lra.
    - split.
      + unfold bb_diagonal. intros E. apply sqrt_eq_0 in E; [|pose proof (pow2_ge_0 (height n)); pose proof (pow2_ge_0 (width n)); lra].
        pose proof (pow2_ge_0 (height n)). pose proof (pow2_ge_0 (width n)).
        apply Hd. split; apply Rsqr_0_uniq; unfold Rsqr; lra.
      + unfold bb_diagonal. rewrite Hth, Htw.
        replace ((Rabs k * width n) ^ 2 + (Rabs k * height n) ^ 2) with (Rabs k ^ 2 * (width n ^ 2 + height n ^ 2)) by ring.
        rewrite sqrt_mult_alt by apply pow2_ge_0. rewrite sqrt_sq, Rabs_Rabsolu. reflexivity. }
  destruct HN as (norm & HN & Hnz & HT).
  assert (HTn : T n <> []) by (destruct n; [congruence|discriminate]).
  exists (e / norm n). unfold bb_normalised_error. rewrite HN, He1, He2. cbn [bind].
  assert (En : match option_map T ns with Some x => x | None => T g end = T n) by (rewrite Hn; destruct ns; reflexivity).
  rewrite <- Hn, En. split.
  - destruct n; [congruence|reflexivity].
  - rewrite HT. destruct (T n); [congruence|]. f_equal. field. split; assumption.
Qed.
Print Assumptions c20_normalised_invariant.

(** Normalised by the area they are not invariant: a common scaling by [k] divides the error by |k|. *)
Theorem c20_area_not_invariant : forall f (s g : list (R * R)) k, is_error f -> length s = length g -> k <> 0 ->
  g <> [] -> height g * width g <> 0 ->
  exists e, bb_normalised_error f s g None "area" = Ok e /\
    bb_normalised_error f (dilate k s) (dilate k g) None "area" = Ok (e / Rabs k).
Proof.
  intros f s g k Hf Hlen Hk Hne Hz.
  assert (Hfe : exists e, f s g = Ok e /\ f (dilate k s) (dilate k g) = Ok (Rabs k * e)).
  { destruct Hf as [-> | ->]; [apply euclidean_dilate|apply rms_dilate]; exact Hlen. }
  destruct Hfe as (e & He1 & He2). exists (e / bb_area g). unfold bb_normalised_error.
  change (bb_norm_types "area") with (Some bb_area). cbn iota beta. rewrite He1, He2. cbn [bind].
  assert (Hak : Rabs k <> 0) by (apply Rabs_no_R0, Hk).
  assert (HT : bb_area (dilate k g) = Rabs k * Rabs k * bb_area g) by (unfold bb_area; rewrite height_dilate, width_dilate; ring).
  split; [destruct g; [congruence|reflexivity]|]. rewrite HT. assert (dilate k g <> []) by (destruct g; [congruence|discriminate]).
  destruct (dilate k g); [congruence|]. f_equal. unfold bb_area in *. field. repeat split; try exact Hak; intros E; apply Hz; rewrite E; ring.
Qed.
Print Assumptions c20_area_not_invariant.

(** Any other normaliser name is rejected, whatever the shapes. *)
Theorem c20_bad_normaliser : forall f s g ns t, ~ length_like t -> t <> "area"%string ->
  bb_normalised_error f s g ns t = Err ValueError.
Proof.
  intros f s g ns t H1 H2. unfold bb_normalised_error. assert (E : bb_norm_types t = None); [|rewrite E; reflexivity].
  unfold bb_norm_types. unfold length_like in H1. cbn [In] in H1.
  destruct (String.eqb_spec t "avg_edge_length"); [exfalso; auto|].
  destruct (String.eqb_spec t "perimeter"); [exfalso; auto|].
  destruct (String.eqb_spec t "diagonal"); [exfalso; auto|].
  destruct (String.eqb_spec t "area"); [contradiction|reflexivity].
Qed.
Print Assumptions c20_bad_normaliser.

(** Different numbers of points: the RMS error always raises; the Euclidean error raises too, except that a shape
    of one point is silently compared with every point of the other shape. *)
Theorem c20_different_sizes : forall s g : list (R * R), length s <> length g ->
  root_mean_square_error s g = Err ValueError /\
  (length s <> 1%nat -> length g <> 1%nat -> euclidean_error s g = Err ValueError).
Proof.
  intros s g H. split.
  - unfold root_mean_square_error. apply Nat.eqb_neq in H. rewrite H. reflexivity.
  - intros H1 H2. unfold euclidean_error, broadcast_sub. apply Nat.eqb_neq in H. rewrite H.
    destruct s as [|p [|p' s]], g as [|q [|q' g]]; cbn [length] in *; try lia; reflexivity.
Qed.
Print Assumptions c20_different_sizes.
Theorem c20_one_point : forall p (g : list (R * R)), g <> [] ->
  euclidean_error [p] g = euclidean_error (map (fun _ => p) g) g /\
  (euclidean_error [p] g = Ok 0 <-> forall q, In q g -> q = p).
Proof.
  intros p g Hne. assert (HL : length (map (fun _ => p) g) = length g) by apply map_length.
  assert (E : euclidean_error [p] g = euclidean_error (map (fun _ => p) g) g).
  { unfold euclidean_error. f_equal. unfold broadcast_sub. rewrite HL, Nat.eqb_refl.
    assert (Ec : forall h : list (R * R), map (fun pq : (R*R) * (R*R) => psub (fst pq) (snd pq)) (combine (map (fun _ => p) h) h) = map (fun q => psub p q) h).
    { induction h as [|q h IH]; [reflexivity|]. cbn [map combine fst snd]. rewrite IH. reflexivity. }
    rewrite Ec. destruct g as [|q [|q' g]]; [congruence|reflexivity|reflexivity]. }
  split; [exact E|]. rewrite E.
  destruct (euclidean_metric (map (fun _ => p) g) g g) as (st & _ & _ & _ & Hst & _ & _ & _ & _ & Hz & _); [destruct g; [congruence|discriminate]|exact HL|reflexivity|].
  rewrite Hst. split.
  - intros H0 q Hq. assert (E0 : st = 0) by congruence. apply Hz in E0. apply In_nth_error in Hq. destruct Hq as [i Hi].
    rewrite <- E0 in Hi. rewrite nth_error_map in Hi. destruct (nth_error g i); [|discriminate]. cbn in Hi. congruence.
  - intros H0. f_equal. apply Hz. transitivity (map (fun q => q) g); [|apply map_id]. apply map_ext_in. intros q Hq. symmetry. apply H0, Hq.
Qed.
Print Assumptions c20_one_point.

Example c20_example : euclidean_error [(0, 0); (1, 1)] [(3, 4); (1, 1)] = Ok (5 / 2) /\
  bb_normalised_error euclidean_error [(0, 0); (1, 1)] [(3, 4); (1, 1)] None "avg_edge_length" = Ok 1.
Proof.
  assert (E : euclidean_error [(0, 0); (1, 1)] [(3, 4); (1, 1)] = Ok (5 / 2)).
  { unfold euclidean_error, broadcast_sub, mean, pnorm, psub. cbn [length Nat.eqb combine map fst snd bind rsum fold_right INR]. f_equal.
    replace ((0 - 3) ^ 2 + (0 - 4) ^ 2) with (5 ^ 2) by ring. replace ((1 - 1) ^ 2 + (1 - 1) ^ 2) with 0 by ring.
    rewrite sqrt_0, sqrt_pow2 by lra. lra. }
  split; [exact E|]. unfold bb_normalised_error. change (bb_norm_types "avg_edge_length") with (Some bb_avg_edge_length). cbn iota. rewrite E.
  cbn [bind]. f_equal. unfold bb_avg_edge_length, height, width. cbn [map fst snd maxl minl fold_left].
  unfold Rmax, Rmin. destruct (Rle_dec 3 1), (Rle_dec 4 1); lra.
Qed.
(** The premises of the normalised invariance are met by the shapes above. *)
Example c20_example_box : ~ (height [(3, 4); (1, 1)] = 0 /\ width [(3, 4); (1, 1)] = 0) /\ height [(3, 4); (1, 1)] * width [(3, 4); (1, 1)] <> 0.
Proof.
  unfold height, width. cbn [map fst snd maxl minl fold_left]. unfold Rmax, Rmin. destruct (Rle_dec 3 1), (Rle_dec 4 1); lra.
Qed.

(** ** C38: displacements of a fitting result whose shapes have the same number of points *)
Theorem c38_displacement_values : forall P A C (r : iresult (list (R * R)) P A C) n,
  Forall (fun s : list (R * R) => length s = n) (r_shapes r) ->
  length (displacements point_displacements r) = pred (length (r_shapes r)) /\
  forall i s1 s2 d, nth_error (r_shapes r) i = Some s1 -> nth_error (r_shapes r) (S i) = Some s2 ->
    nth_error (displacements point_displacements r) i = Some d ->
    length d = n /\ Forall (fun x => 0 <= x) d /\
    (forall j p1 p2, nth_error s1 j = Some p1 -> nth_error s2 j = Some p2 ->
       exists x, nth_error d j = Some x /\ x ^ 2 = (fst p1 - fst p2) ^ 2 + (snd p1 - snd p2) ^ 2) /\
    (Forall (fun x => x = 0) d <-> s1 = s2) /\
    (forall v, point_displacements (translate v s1) (translate v s2) = d).
Proof.
  intros P A C r n HF. unfold displacements. split.
  - rewrite map_length, combine_length. destruct (r_shapes r); cbn [tl length]; lia.
  - intros i s1 s2 d H1 H2 Hd.
    assert (Ed : d = point_displacements s1 s2).
    { rewrite nth_error_map in Hd. destruct (nth_error (combine (r_shapes r) (tl (r_shapes r))) i) as [[a b]|] eqn:Ec; [|discriminate].
      cbn [option_map fst snd] in Hd. assert (Ea : a = s1 /\ b = s2); [|destruct Ea; congruence].
      clear Hd HF d. revert Ec H1 H2. generalize (r_shapes r). intros l. revert i.
      induction l as [|x l IH]; intros i Ec H1 H2; [destruct i; discriminate|]. cbn [tl] in Ec. destruct l as [|y l]; [destruct i; discriminate|].
      destruct i as [|i]; [cbn in *; split; congruence|]. apply (IH i); assumption. }
    rewrite Forall_forall in HF. pose proof (HF s1 (nth_error_In _ _ H1)) as L1. pose proof (HF s2 (nth_error_In _ _ H2)) as L2.
    clear - Ed L1 L2. subst d. unfold point_displacements. assert (L : length s1 = length s2) by congruence.
    assert (Lc : length (combine s1 s2) = n) by (rewrite combine_length; lia). split; [rewrite map_length; exact Lc|].
    split; [apply Forall_forall; intros x Hx; apply in_map_iff in Hx; destruct Hx as (pq & <- & _); apply sqrt_pos|].
    split.
    { intros j p1 p2 Hj1 Hj2. exists (pnorm (psub p1 p2)). split.
      - rewrite nth_error_map. assert (Ec : nth_error (combine s1 s2) j = Some (p1, p2)); [|rewrite Ec; reflexivity].
        clear - Hj1 Hj2. revert s2 j Hj1 Hj2. induction s1 as [|a s1 IH]; intros [|b s2] [|j] Hj1 Hj2; try discriminate; cbn in *; [congruence|auto].
      - unfold pnorm, psub. cbn [fst snd]. rewrite pow2_sqrt; [reflexivity|]. pose proof (pow2_ge_0 (fst p1 - fst p2)). pose proof (pow2_ge_0 (snd p1 - snd p2)). lra. }
    split.
    { clear - L. revert s2 L. induction s1 as [|p s1 IH]; intros [|q s2] L; try discriminate; cbn [combine map fst snd].
      - split; [reflexivity|constructor].
      - cbn [length] in L. split.
        + intros HF. inversion HF as [|? ? Hx Hr]; subst. apply dist_zero in Hx. apply IH in Hr; [congruence|lia].
        + intros E. assert (E1 : p = q) by congruence. assert (E2 : s1 = s2) by congruence. constructor; [apply dist_zero, E1|apply IH; [lia|exact E2]]. }
    intros v. clear - L. revert s2 L. unfold translate. induction s1 as [|p s1 IH]; intros [|q s2] L; try discriminate; [reflexivity|].
    cbn [combine map fst snd]. f_equal; [apply (dist_translate v p q)|apply IH; cbn [length] in L; lia].
Qed.
Print Assumptions c38_displacement_values.

(** ** C50 *)
(** Without a diagonal (or with 0): the mean shape.  With one: the mean shape scaled about the origin so that its
    bounding box has that diagonal, provided the mean shape is not a single location. *)
Theorem c50_reference_shape : forall shapes diagonal m r,
  mean_pointcloud shapes = Ok m -> compute_reference_shape shapes diagonal = Ok r ->
  mean_of shapes m /\
  (diagonal = None \/ diagonal = Some 0 -> r = m) /\
  (forall d, diagonal = Some d -> 0 < d -> ~ (height m = 0 /\ width m = 0) ->
    (exists k, 0 < k /\ r = dilate k m) /\
    forall h w, extent fst r h -> extent snd r w -> h ^ 2 + w ^ 2 = d ^ 2).
Proof.
  intros shapes diagonal m r Hm Hr. split; [apply mean_pointcloud_spec, Hm|]. unfold compute_reference_shape in Hr. rewrite Hm in Hr. cbn [bind] in Hr.
  split.
  - intros [-> | ->]; [congruence|]. destruct (Req_EM_T 0 0) as [_|N]; [congruence|exfalso; apply N; reflexivity].
  - intros d -> Hd Hnd. destruct (Req_EM_T d 0) as [E|_]; [lra|].
    assert (Hne : m <> []) by (destruct m; [discriminate|discriminate]).
    set (k := d / sqrt (height m ^ 2 + width m ^ 2)) in *.
    assert (Er : r = dilate k m) by (destruct m; [congruence|]; unfold dilate, scale_shape in *; congruence).
    pose proof (pow2_ge_0 (height m)) as P1. pose proof (pow2_ge_0 (width m)) as P2.
    assert (Hs : 0 < height m ^ 2 + width m ^ 2).
    { destruct (Req_dec (height m ^ 2 + width m ^ 2) 0) as [E|E]; [exfalso; apply Hnd|lra].
      split; apply Rsqr_0_uniq; unfold Rsqr; lra. }
    pose proof (sqrt_lt_R0 _ Hs) as Hq.
    assert (Hk : 0 < k) by (apply Rmult_lt_0_compat; [exact Hd|apply Rinv_0_lt_compat, Hq]).
    split; [exists k; split; assumption|].
    assert (Hrne : r <> []) by (rewrite Er; destruct m; [congruence|discriminate]).
    assert (U : forall axis x y, extent axis r x -> extent axis r y -> x = y).
    { intros axis x y (A1 & p & q & Hp & Hq' & E1) (A2 & p' & q' & Hp' & Hq'' & E2). specialize (A1 _ _ Hp' Hq''). specialize (A2 _ _ Hp Hq'). lra. }
    intros h w Hh Hw.
    rewrite (U fst h (height r) Hh (range_extent fst r Hrne)), (U snd w (width r) Hw (range_extent snd r Hrne)).
    rewrite Er, height_dilate, width_dilate, (Rabs_pos_eq k) by lra.
    replace ((k * height m) ^ 2 + (k * width m) ^ 2) with (k ^ 2 * (height m ^ 2 + width m ^ 2)) by ring.
    rewrite <- (pow2_sqrt (height m ^ 2 + width m ^ 2)) by lra. unfold k. field. lra.
Qed.
Print Assumptions c50_reference_shape.

(** It succeeds on every non-empty list of shapes of the same positive number of points. *)
Theorem c50_defined : forall (s : list (R * R)) shapes diagonal, s <> [] ->
  Forall (fun t : list (R * R) => length t = length s) shapes ->
  exists m r, mean_pointcloud (s :: shapes) = Ok m /\ compute_reference_shape (s :: shapes) diagonal = Ok r.
Proof.
  intros s shapes diagonal Hne HF. unfold compute_reference_shape, mean_pointcloud.
  assert (E : forallb (fun t : list (R * R) => Nat.eqb (length t) (length s)) shapes = true).
  { apply forallb_forall. intros t Ht. rewrite Forall_forall in HF. apply Nat.eqb_eq, HF, Ht. }
  rewrite E. cbn [bind]. eexists. match goal with |- exists r, ?A /\ @?B r => cut (exists r, B r); [intros [r Hr]; exists r; split; [reflexivity|exact Hr]|] end. cbn beta. destruct diagonal as [d|]; [|eexists; reflexivity].
  destruct (Req_EM_T d 0); [eexists; reflexivity|].
  destruct (scale_shape (/ INR (length (s :: shapes))) (fold_left add_shapes shapes s)) eqn:Es; [|eexists; reflexivity].
  exfalso. apply Hne. apply length_zero_iff_nil. rewrite <- (fold_add_length shapes s HF).
  apply (f_equal (@length _)) in Es. unfold scale_shape in Es. rewrite map_length in Es. exact Es.
Qed.
Print Assumptions c50_defined.

(** A negative diagonal is accepted and turns the reference shape upside down. *)
Theorem c50_negative : exists r, compute_reference_shape [[(0, 0); (0, 3)]] (Some (-3)) = Ok r /\ r = [(0, 0); (0, -3)].
Proof.
  unfold compute_reference_shape, mean_pointcloud. cbn [forallb bind fold_left length]. destruct (Req_EM_T (-3) 0) as [E|_]; [lra|].
  cbn [scale_shape map fst snd INR]. eexists. split; [reflexivity|]. unfold height, width. cbn [map fst snd maxl minl fold_left].
  assert (E1 : / 1 * 0 = 0) by lra. assert (E2 : / 1 * 3 = 3) by lra. rewrite E1, E2.
  assert (E3 : Rmax 0 0 - Rmin 0 0 = 0) by (unfold Rmax, Rmin; destruct (Rle_dec 0 0); lra).
  assert (E4 : Rmax 0 3 - Rmin 0 3 = 3) by (unfold Rmax, Rmin; destruct (Rle_dec 0 3); lra). rewrite E3, E4.
  replace (0 ^ 2 + 3 ^ 2) with (3 ^ 2) by ring. rewrite sqrt_pow2 by lra.
  repeat f_equal; try field.
Qed.
Print Assumptions c50_negative.

Example c50_example : exists r, compute_reference_shape [[(0, 0); (3, 3)]; [(0, 0); (3, 5)]] (Some 10) = Ok r /\ r = [(0, 0); (6, 8)].
Proof.
  unfold compute_reference_shape, mean_pointcloud. cbn [forallb bind fold_left length Nat.eqb andb]. destruct (Req_EM_T 10 0) as [E|_]; [lra|].
  cbn [scale_shape add_shapes padd combine map fst snd INR]. eexists. split; [reflexivity|]. unfold height, width. cbn [map fst snd maxl minl fold_left].
  assert (E1 : / (1 + 1) * (0 + 0) = 0) by lra. assert (E2 : / (1 + 1) * (3 + 3) = 3) by lra. assert (E5 : / (1 + 1) * (3 + 5) = 4) by lra.
  rewrite E1, E2, E5.
  assert (E3 : Rmax 0 3 - Rmin 0 3 = 3) by (unfold Rmax, Rmin; destruct (Rle_dec 0 3); lra).
  assert (E4 : Rmax 0 4 - Rmin 0 4 = 4) by (unfold Rmax, Rmin; destruct (Rle_dec 0 4); lra). rewrite E3, E4.
  replace (3 ^ 2 + 4 ^ 2) with (5 ^ 2) by ring. rewrite sqrt_pow2 by lra.
  repeat f_equal; lra.
Qed.
