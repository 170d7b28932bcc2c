(** C115: the default preprocessing of pretrained fitters shows them the surroundings of the initial shape, unchanged. *)
From Coq Require Import List Arith Bool ZArith Reals Lra Lia.
From Verif.Model Require Import Py Dict Result Io Preprocess.
From Verif.Spec Require Import Preprocess.
From Verif.Props Require Io.
Import ListNotations.
Local Open Scope R_scope.

Lemma lowest_spec x r : In (lowest x r) (x :: r) /\ forall y, In y (x :: r) -> lowest x r <= y.
Proof.
  induction r as [|z r [I L]]; cbn [lowest fold_right].
  - split; [now left|]. intros y [->|[]]. cbn. lra.
  - fold (lowest x r). unfold Rmin. destruct (Rle_dec z (lowest x r)) as [H|H]; split.
    + right. now left.
    + intros y [->|[->|Y]]; [specialize (L y (or_introl eq_refl))| |specialize (L y (or_intror Y))]; lra.
    + destruct I as [I|I]; [now left|right; now right].
    + intros y [->|[->|Y]]; [apply (L y); now left|lra|apply (L y); now right].
Qed.
Lemma highest_spec x r : In (highest x r) (x :: r) /\ forall y, In y (x :: r) -> y <= highest x r.
Proof.
  induction r as [|z r [I L]]; cbn [highest fold_right].
  - split; [now left|]. intros y [->|[]]. cbn. lra.
  - fold (highest x r). unfold Rmax. destruct (Rle_dec z (highest x r)) as [H|H]; split.
    + destruct I as [I|I]; [now left|right; now right].
    + intros y [->|[->|Y]]; [apply (L y); now left|lra|apply (L y); now right].
    + right. now left.
    + intros y [->|[->|Y]]; [specialize (L y (or_introl eq_refl))| |specialize (L y (or_intror Y))]; lra.
Qed.
Lemma spans_eq l a b a' b' : spans l a b -> spans l a' b' -> a = a' /\ b = b'.
Proof.
  intros (A & B & C) (A' & B' & C'). pose proof (C _ A'). pose proof (C _ B'). pose proof (C' _ A). pose proof (C' _ B). split; lra.
Qed.
Lemma spans_of x r : spans (x :: r) (lowest x r) (highest x r).
Proof.
  destruct (lowest_spec x r) as [A B], (highest_spec x r) as [C D]. split; [exact A|]. split; [exact C|]. auto.
Qed.
Lemma floor_spec x : IZR (floor x) <= x < IZR (floor x) + 1.
Proof. unfold floor. pose proof (base_Int_part x). lra. Qed.
Lemma ceil_spec x : IZR (ceil x) - 1 < x <= IZR (ceil x).
Proof. unfold ceil. rewrite opp_IZR. pose proof (base_Int_part (- x)). lra. Qed.

Section C115.
  Context {V : Type}.
  Variable grey : picture V -> picture V.
  Notation preprocess := (image_greyscale_crop_preprocess grey).

  (** What the wrapped fitter gets: a window of the image (of its grey version if it has three channels) with the same pixels,
      at a whole number of pixels from its corner, and the initial shape moved by that number; the way back is exact.  The
      window holds every place of the image in the bounding box of the shape enlarged by the proportion of its smaller side,
      and no pixel that is a whole pixel outside it. *)
  Theorem c115_window proportion im pc small t y0 y1 x0 x1 : 0 <= proportion -> (0 <= rows im)%Z -> (0 <= cols im)%Z ->
    (n_channels im = 3%nat -> rows (grey im) = rows im /\ cols (grey im) = cols im) ->
    spans (map fst pc) y0 y1 -> spans (map snd pc) x0 x1 ->
    preprocess proportion im pc = Ok (small, t) ->
    exists a b : Z, (0 <= a)%Z /\ (0 <= b)%Z /\ (0 <= rows small)%Z /\ (0 <= cols small)%Z /\
      (a + rows small <= rows im)%Z /\ (b + cols small <= cols im)%Z /\
      (forall i j, pixel_at small i j = pixel_at (if (n_channels im =? 3)%nat then grey im else im) (i + a)%Z (j + b)%Z) /\
      (forall s, t_apply t s = moved a b s /\ t_pinv t s = moved (- a) (- b) s /\ t_apply t (t_pinv t s) = s) /\
      (let m := proportion * Rmin (y1 - y0) (x1 - x0) in forall y x, 0 <= y <= IZR (rows im) -> 0 <= x <= IZR (cols im) ->
         y0 - m <= y <= y1 + m -> x0 - m <= x <= x1 + m ->
         0 <= y - IZR a <= IZR (rows small) /\ 0 <= x - IZR b <= IZR (cols small)) /\
      n_channels small = n_channels (if (n_channels im =? 3)%nat then grey im else im) /\
      (let m := proportion * Rmin (y1 - y0) (x1 - x0) in
       (forall i, (0 <= i < rows small)%Z -> y0 - m - 1 < IZR (i + a) < y1 + m) /\
       (forall j, (0 <= j < cols small)%Z -> x0 - m - 1 < IZR (j + b) < x1 + m)).
  Proof.
    intros P R C G SY SX. unfold image_greyscale_crop_preprocess.
    set (g := if (n_channels im =? 3)%nat then grey im else im).
    assert (S : rows g = rows im /\ cols g = cols im).
    { unfold g. destruct (Nat.eqb_spec (n_channels im) 3) as [E|E]; [now apply G|auto]. }
    destruct S as [Rg Cg]. destruct pc as [|p r]; [discriminate|]. cbn [crop_to_pointcloud_proportion].
    destruct (spans_eq _ _ _ _ _ SY (spans_of (fst p) (map fst r))) as [<- <-].
    destruct (spans_eq _ _ _ _ _ SX (spans_of (snd p) (map snd r))) as [<- <-].
    set (m := proportion * Rmin (y1 - y0) (x1 - x0)). unfold crop. cbn [fst snd].
    destruct (_ || _) eqn:E; [discriminate|]. apply orb_false_iff in E. destruct E as [E0 E1]. apply Z.leb_gt in E0, E1.
    intros H. injection H as <- <-. cbn [rows cols pixel_at]. rewrite Rg, Cg.
    exists (clip (floor (y0 - m)) 0 (rows im)), (clip (floor (x0 - m)) 0 (cols im)).
    assert (K : forall l h n : Z, (0 <= n)%Z -> (l < h)%Z -> (0 <= clip l 0 n)%Z /\ (clip l 0 n <= clip h 0 n)%Z /\ (clip h 0 n <= n)%Z).
    { intros l h n N L. unfold clip. lia. }
    pose proof (K _ _ _ R E0) as (A1 & A2 & A3). pose proof (K _ _ _ C E1) as (B1 & B2 & B3).
    repeat (split; [lia|]). split; [reflexivity|]. split.
    - intros s. split; [reflexivity|]. split.
      + unfold moved. cbn [t_pinv translation]. apply map_ext. intros q. cbn. now rewrite !opp_IZR.
      + cbn [t_apply t_pinv translation]. rewrite map_map. rewrite <- (map_id s) at 2. apply map_ext. intros [u v]. cbn. f_equal; lra.
    - split; [|split; [reflexivity|]].
      2:{ assert (W : forall lo hi n i, (floor lo < ceil hi)%Z -> (0 <= n)%Z ->
            (0 <= i < clip (ceil hi) 0 n - clip (floor lo) 0 n)%Z -> lo - 1 < IZR (i + clip (floor lo) 0 n) < hi).
          { intros lo hi n i L N I. pose proof (floor_spec lo). pose proof (ceil_spec hi).
            assert (A : (floor lo <= i + clip (floor lo) 0 n)%Z) by (unfold clip in *; lia).
            assert (B : (i + clip (floor lo) 0 n <= ceil hi - 1)%Z) by (unfold clip in *; lia).
            apply IZR_le in A, B. rewrite minus_IZR in B. lra. }
          split; intros i I; [exact (W _ _ _ _ E0 R I)|exact (W _ _ _ _ E1 C I)]. }
      intros y x Y X MY MX.
      assert (W : forall lo hi n z, 0 <= z <= IZR n -> lo <= z <= hi ->
        0 <= z - IZR (clip (floor lo) 0 n) <= IZR (clip (ceil hi) 0 n - clip (floor lo) 0 n)).
      { intros lo hi n z Z B. rewrite minus_IZR. pose proof (floor_spec lo). pose proof (ceil_spec hi).
        assert (IZR (clip (floor lo) 0 n) <= z).
        { unfold clip. destruct (Z.min_spec (Z.max (floor lo) 0) n) as [[_ ->]|[L ->]].
          - destruct (Z.max_spec (floor lo) 0) as [[_ ->]|[_ ->]]; [tauto|lra].
          - apply IZR_le in L. destruct (Z.max_spec (floor lo) 0) as [[_ E]|[_ E]]; rewrite E in L; lra. }
        assert (z <= IZR (clip (ceil hi) 0 n)).
        { unfold clip. destruct (Z.min_spec (Z.max (ceil hi) 0) n) as [[_ ->]|[_ ->]]; [|tauto].
          destruct (Z.max_spec (ceil hi) 0) as [[L ->]|[_ ->]]; [|lra]. apply IZR_lt in L. lra. }
        lra. }
      split; apply W; tauto.
  Qed.
  (** It raises for shapes whose points all have the same whole row number or the same whole column number, and for no
      others. *)
  Theorem c115_raises proportion im pc y0 y1 x0 x1 : 0 <= proportion -> spans (map fst pc) y0 y1 -> spans (map snd pc) x0 x1 ->
    ((exists small t, preprocess proportion im pc = Ok (small, t)) \/ preprocess proportion im pc = Err ValueError) /\
    (preprocess proportion im pc = Err ValueError <-> exists k : Z, (forall p, In p pc -> fst p = IZR k) \/ (forall p, In p pc -> snd p = IZR k)).
  Proof.
    intros P SY SX. unfold image_greyscale_crop_preprocess. set (g := if (n_channels im =? 3)%nat then grey im else im).
    destruct pc as [|p r]; [destruct SY as [[] _]|]. cbn [crop_to_pointcloud_proportion].
    destruct (spans_eq _ _ _ _ _ SY (spans_of (fst p) (map fst r))) as [<- <-].
    destruct (spans_eq _ _ _ _ _ SX (spans_of (snd p) (map snd r))) as [<- <-].
    set (m := proportion * Rmin (y1 - y0) (x1 - x0)). unfold crop. cbn [fst snd].
    assert (Y : y0 <= y1) by (destruct SY as (A & _ & B); apply (B _ A)).
    assert (X : x0 <= x1) by (destruct SX as (A & _ & B); apply (B _ A)).
    assert (M : 0 <= m).
    { unfold m. apply Rmult_le_pos; [exact P|]. apply Rmin_glb; lra. }
    assert (Em : forall lo hi, lo <= hi -> (ceil (hi + m) <= floor (lo - m))%Z -> m = 0 /\ lo = hi /\ exists k, lo = IZR k).
    { intros lo hi L E. apply IZR_le in E. pose proof (floor_spec (lo - m)). pose proof (ceil_spec (hi + m)).
      assert (m = 0) by lra. repeat split; [lra|lra|]. exists (floor (lo - m)). lra. }
    assert (Ro : forall k lo hi, m = 0 -> lo = IZR k -> hi = IZR k -> (ceil (hi + m) <= floor (lo - m))%Z).
    { intros k lo hi -> -> ->. apply Z.le_trans with k.
      - pose proof (ceil_spec (IZR k + 0)) as [A _]. assert (IZR (ceil (IZR k + 0)) < IZR (k + 1)) by (rewrite plus_IZR; lra). apply lt_IZR in H. lia.
      - pose proof (floor_spec (IZR k - 0)) as [_ A]. assert (IZR k < IZR (floor (IZR k - 0) + 1)) by (rewrite plus_IZR; lra). apply lt_IZR in H. lia. }
    assert (All : forall (l : list (R * R)) (pr : R * R -> R) lo hi k, spans (map pr l) lo hi -> lo = IZR k -> lo = hi -> forall q, In q l -> pr q = IZR k).
    { intros l pr lo hi k (_ & _ & B) -> <- q Q. specialize (B (pr q) (in_map pr _ _ Q)). lra. }
    assert (One : forall (l : list (R * R)) (pr : R * R -> R) lo hi k, spans (map pr l) lo hi -> (forall q, In q l -> pr q = IZR k) -> lo = IZR k /\ hi = IZR k).
    { intros l pr lo hi k (A & B & _) Q. apply in_map_iff in A, B. destruct A as (q & <- & A), B as (q' & <- & B). auto. }
    destruct (_ || _) eqn:E.
    - split; [now right|]. split; [intros _|reflexivity]. apply orb_true_iff in E. destruct E as [E|E]; apply Z.leb_le in E.
      + destruct (Em _ _ Y E) as (_ & L & k & K). exists k. left. exact (All (p :: r) fst y0 y1 k SY K L).
      + destruct (Em _ _ X E) as (_ & L & k & K). exists k. right. exact (All (p :: r) snd x0 x1 k SX K L).
    - split; [left; eauto|]. split; [discriminate|]. apply orb_false_iff in E. destruct E as [E0 E1]. apply Z.leb_gt in E0, E1.
      intros [k [Q|Q]]; exfalso.
      + destruct (One (p :: r) fst y0 y1 k SY Q) as [A B]. assert (m = 0).
        { unfold m. rewrite A, B, Rminus_diag_eq by reflexivity. rewrite Rmin_left by lra. ring. }
        specialize (Ro k y0 y1 H A B). lia.
      + destruct (One (p :: r) snd x0 x1 k SX Q) as [A B]. assert (m = 0).
        { unfold m. rewrite A, B, (Rminus_diag_eq (IZR k)) by reflexivity. rewrite Rmin_right by lra. ring. }
        specialize (Ro k x0 x1 H A B). lia.
  Qed.
  (** So pretrained fitters with the default preprocessing report the user's image, start at the user's shape, and end at the
      last of their shapes, if the fitters inside do. *)
  Theorem c115_pretrained {K P A C : Type} (wrapped : nat -> method -> picture V -> list (R * R) -> dict K -> res (wresult (picture V) (list (R * R)) P A C))
    w h n m im shape kwargs h' out :
    (bb_kwargs w < length h)%nat -> (shape_kwargs w < length h)%nat -> NoDup (map fst kwargs) ->
    (forall i s k r, wrapped n m i s k = Ok r -> r_initial (w_res r) = Some s /\ w_iterative r = true /\
       hd_error (r_shapes (w_res r)) = Some s /\ hd_error (rev (r_shapes (w_res r))) = Some (r_final (w_res r))) ->
    wrapped_fit wrapped (Some (fun _ => preprocess 1)) w n h m im shape kwargs = (h', Ok out) ->
    w_image out = im /\ r_initial (w_res out) = Some shape /\ hd_error (r_shapes (w_res out)) = Some shape /\
    hd_error (rev (r_shapes (w_res out))) = Some (r_final (w_res out)).
  Proof.
    intros Hb Hs N Hw E. destruct (preprocess 1 im shape) as [[small t]|e] eqn:Pre.
    - eapply (Props.Io.c28_original_image K (picture V) (list (R * R)) P A C wrapped (fun _ => preprocess 1)); eauto.
      intros s. unfold image_greyscale_crop_preprocess in Pre. destruct shape as [|p r]; [discriminate|]. cbn [crop_to_pointcloud_proportion] in Pre.
      unfold crop in Pre. destruct (_ || _); [discriminate|]. injection Pre as _ <-.
      cbn [t_apply t_pinv translation]. rewrite map_map. rewrite <- (map_id s) at 2. apply map_ext. intros [u v]. cbn. f_equal; lra.
    - exfalso. unfold wrapped_fit in E. destruct (alloc _ _) as [h1 k1]. rewrite Pre in E. discriminate E.
  Qed.
End C115.

(** A square of four landmarks in a large image of one channel; and four landmarks in one row. *)
Example c115_ex : spans (map fst [(10, 20); (10, 24); (14, 20); (14, 24)]) 10 14 /\ spans (map snd [(10, 20); (10, 24); (14, 20); (14, 24)]) 20 24 /\
  (exists small t, image_greyscale_crop_preprocess (fun im => im) 1 (mk_picture 1 100 100 (fun i j => (i, j))) [(10, 20); (10, 24); (14, 20); (14, 24)] = Ok (small, t)) /\
  image_greyscale_crop_preprocess (fun im => im) 1 (mk_picture 1 100 100 (fun i j => (i, j))) [(10, 20); (10, 24)] = Err ValueError.
Proof.
  assert (A : spans (map fst [(10, 20); (10, 24); (14, 20); (14, 24)]) 10 14) by (split; [cbn; tauto|split; [cbn; tauto|]]; cbn; intros x H; lra).
  assert (B : spans (map snd [(10, 20); (10, 24); (14, 20); (14, 24)]) 20 24) by (split; [cbn; tauto|split; [cbn; tauto|]]; cbn; intros x H; lra).
  split; [exact A|]. split; [exact B|]. split.
  - destruct (c115_raises (fun im => im) 1 (mk_picture 1 100 100 (fun i j : Z => (i, j))) _ _ _ _ _ Rle_0_1 A B) as [[H|H] I]; [exact H|]. exfalso.
    apply I in H. destruct H as [k [H|H]].
    + pose proof (H (10, 20) ltac:(cbn; tauto)). pose proof (H (14, 20) ltac:(cbn; tauto)). cbn in *. lra.
    + pose proof (H (10, 20) ltac:(cbn; tauto)). pose proof (H (10, 24) ltac:(cbn; tauto)). cbn in *. lra.
  - apply (c115_raises (fun im => im) 1 (mk_picture 1 100 100 (fun i j : Z => (i, j))) _ 10 10 20 24 Rle_0_1).
    + split; [cbn; tauto|split; [cbn; tauto|]]; cbn; intros x H; lra.
    + split; [cbn; tauto|split; [cbn; tauto|]]; cbn; intros x H; lra.
    + exists 10%Z. left. cbn. intros q [<-|[<-|[]]]; reflexivity.
Qed.

Print Assumptions c115_window.
Print Assumptions c115_raises.
Print Assumptions c115_pretrained.
