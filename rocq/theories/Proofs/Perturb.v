From Coq Require Import String DecimalString DecimalNat DecimalFacts List ZArith Bool Lia.
From Verif.Model Require Import Py Dict Result Perturb.
From Verif.Spec Require Import Perturb.
From Verif.Proofs Require Import Dict.
From Verif.Proofs Require Result.
Import ListNotations.
Local Open Scope nat_scope.

Lemma nth_error_ext {A} (l l' : list A) : (forall n, nth_error l n = nth_error l' n) -> l = l'.
Proof.
  revert l'. induction l as [|x l IH]; intros [|y l'] H; auto; try (specialize (H 0); discriminate).
  f_equal; [specialize (H 0); cbn in H; congruence|]. apply IH. intros n. apply (H (S n)).
Qed.
Lemma show_nat_inj j k : show_nat j = show_nat k -> j = k.
Proof.
  unfold show_nat. intros H. apply (f_equal NilEmpty.uint_of_string) in H.
  rewrite !NilEmpty.usu in H. injection H as H. apply (f_equal Nat.of_uint) in H.
  rewrite !DecimalNat.Unsigned.of_to in H. exact H.
Qed.
Lemma append_inj p a b : append p a = append p b -> a = b.
Proof. induction p; cbn; auto. intros [= H]. auto. Qed.
Lemma key_inj p j k : numbered_key p j = numbered_key p k -> j = k.
Proof. intros H. apply append_inj in H. apply show_nat_inj. exact H. Qed.
Lemma prefix_append p s : prefix p (append p s) = true.
Proof. induction p; cbn; [destruct s; reflexivity|]. destruct (Ascii.ascii_dec a a); congruence. Qed.
Lemma prefix_key p k : prefix p (numbered_key p k) = true.
Proof. apply prefix_append. Qed.

Section N.
  Context {V : Type}.
  Lemma filter_set (f : string -> bool) k (v : V) d :
    f k = true -> filter (fun kv => f (fst kv)) (dict_set k v d) = dict_set k v (filter (fun kv => f (fst kv)) d).
  Proof.
    intros H. induction d as [|[k' v'] d IH]; cbn; [rewrite H; reflexivity|].
    destruct (String.eqb k k') eqn:E; cbn.
    - apply String.eqb_eq in E. subst. rewrite H. cbn. rewrite String.eqb_refl. reflexivity.
    - destruct (f k') eqn:F; cbn; rewrite ?E, IH; reflexivity.
  Qed.
  Lemma filter_set_other (f : string -> bool) k (v : V) d :
    f k = false -> filter (fun kv => f (fst kv)) (dict_set k v d) = filter (fun kv => f (fst kv)) d.
  Proof.
    intros H. induction d as [|[k' v'] d IH]; cbn; [rewrite H; reflexivity|].
    destruct (String.eqb k k') eqn:E; cbn.
    - apply String.eqb_eq in E. subst. rewrite H. reflexivity.
    - rewrite IH. reflexivity.
  Qed.

  Definition number_from (p : string) (o : nat) (bs : list V) : list (string * V) :=
    map (fun kb => (numbered_key p (fst kb), snd kb)) (combine (seq o (length bs)) bs).
  Lemma number_from_get p o bs k : dict_get (numbered_key p k) (number_from p o bs) =
    if k <? o then None else nth_error bs (k - o).
  Proof.
    revert o. induction bs as [|b bs IH]; intros o; cbn -[Nat.ltb].
    - destruct (k <? o); auto. destruct (k - o); reflexivity.
    - unfold number_from in IH. destruct (String.eqb _ _) eqn:E.
      + apply String.eqb_eq, key_inj in E. subst. rewrite Nat.ltb_irrefl, Nat.sub_diag. reflexivity.
      + apply String.eqb_neq in E. rewrite IH. destruct (Nat.ltb_spec k o), (Nat.ltb_spec k (S o)); try lia; auto.
        * assert (k = o) by lia. subst. congruence.
        * replace (k - o) with (S (k - S o)) by lia. reflexivity.
  Qed.
  Lemma number_from_app p o a b : number_from p o (a ++ b) = number_from p o a ++ number_from p (o + length a) b.
  Proof.
    revert o. induction a as [|x a IH]; intros o; cbn; [rewrite Nat.add_0_r; reflexivity|].
    unfold number_from in *. rewrite IH. cbn. f_equal. f_equal. replace (o + S (length a)) with (S o + length a) by lia. reflexivity.
  Qed.
  (** setting number k of a list at least that long *)
  Lemma set_number p o (new old : list V) v :
    dict_set (numbered_key p (o + length new)) v (number_from p o (new ++ old)) =
    number_from p o (new ++ v :: skipn 1 old).
  Proof.
    revert o. induction new as [|x new IH]; intros o.
    - cbn [length app]. rewrite Nat.add_0_r. destruct old as [|y old]; [reflexivity|]. cbn.
      rewrite String.eqb_refl. reflexivity.
    - cbn -[skipn numbered_key]. destruct (String.eqb _ _) eqn:E.
      + apply String.eqb_eq, key_inj in E. lia.
      + f_equal. replace (o + S (length new)) with (S o + length new) by lia. apply (IH (S o)).
  Qed.
  Lemma map_snd_number p o bs : map snd (number_from p o bs) = bs.
  Proof. revert o. induction bs as [|b bs IH]; intros o; cbn; [reflexivity|]. f_equal. apply IH. Qed.
End N.

Section Boxes.
  Context {Sh Px : Type}.
  Variable bounding_box : Sh -> Sh.
  Variable constrain : Px -> Sh -> Sh.
  Variable perturb_func : nat -> Sh -> Sh -> res Sh.
  Variable matches : string -> bool.
  Notation ploop := (perturb_loop bounding_box constrain perturb_func).
  Notation bloop := (box_loop bounding_box constrain perturb_func).
  Notation gen d := (filter (fun kv => prefix bb_prefix (fst kv)) d).
  Notation rest d := (filter (fun kv => negb (prefix bb_prefix (fst kv))) d).

  Lemma gen_set k (v : Sh) d : gen (dict_set (numbered_key bb_prefix k) v d) = dict_set (numbered_key bb_prefix k) v (gen d).
  Proof. apply (filter_set (fun s => prefix bb_prefix s)). apply prefix_key. Qed.
  Lemma rest_set k (v : Sh) d : rest (dict_set (numbered_key bb_prefix k) v d) = rest d.
  Proof. apply (filter_set_other (fun s => negb (prefix bb_prefix s))). rewrite prefix_key. reflexivity. Qed.

  (** what a dictionary looks like in mid-loop *)
  Definition state (d : dict Sh) (new old : list Sh) : Prop := gen d = number bb_prefix (new ++ old).
  Lemma state_set d new old v k : state d new old -> k = length new ->
    state (dict_set (numbered_key bb_prefix k) v d) (new ++ [v]) (skipn 1 old).
  Proof.
    unfold state. intros H ->. rewrite gen_set, H. rewrite <- app_assoc. cbn [app].
    apply (set_number bb_prefix 0).
  Qed.

  Lemma ploop_spec n p gt_s bb : forall c k d c' k' d' new old,
    ploop n p gt_s bb c k d = Ok (c', k', d') -> state d new old -> k = length new ->
    exists ps, length ps = n /\ c' = c + n /\ k' = k + n /\
      (forall l s, nth_error ps l = Some s -> perturb_func (c + l) gt_s bb = Ok s) /\
      rest d' = rest d /\
      state d' (new ++ map (fun s => constrain p (bounding_box s)) ps) (skipn n old).
  Proof.
    induction n as [|n IH]; intros c k d c' k' d' new old H S K.
    - injection H as <- <- <-. exists []. rewrite app_nil_r. cbn. repeat (split; auto; try lia).
      intros [|l] s; discriminate.
    - cbn -[numbered_key bb_prefix] in H. destruct (perturb_func c gt_s bb) as [s|] eqn:E; [|discriminate].
      cbn [bind] in H. apply IH with (new := new ++ [constrain p (bounding_box s)]) (old := skipn 1 old) in H.
      + destruct H as (ps & L & -> & -> & P & R & S'). exists (s :: ps).
        split; [cbn; lia|]. split; [lia|]. split; [lia|]. split.
        * intros [|l] s' Hs; [injection Hs as <-; rewrite Nat.add_0_r; auto|].
          rewrite Nat.add_succ_r, <- Nat.add_succ_l. auto.
        * split; [rewrite R; apply rest_set|]. cbn. rewrite <- app_assoc in S'. cbn in S'.
          destruct old; [destruct n; exact S'|exact S'].
      + apply state_set; auto.
      + rewrite app_length. cbn. lia.
  Qed.

  Lemma skipn_skipn {A} m n (l : list A) : skipn m (skipn n l) = skipn (n + m) l.
  Proof. revert l. induction n; intros l; cbn; auto. destruct l; auto. destruct m; reflexivity. Qed.

  Lemma bloop_spec n glob p gt_s bbs : forall c k d c' k' d' new old,
    bloop n glob p gt_s bbs c k d = Ok (c', k', d') -> state d new old -> k = length new ->
    exists fresh, expected_boxes bounding_box constrain perturb_func c n glob p gt_s bbs fresh /\
      c' = c + length bbs * n /\ rest d' = rest d /\ state d' (new ++ fresh) (skipn (length fresh) old).
  Proof.
    induction bbs as [|bb bbs IH]; intros c k d c' k' d' new old H S K.
    - injection H as <- <- <-. exists []. rewrite app_nil_r. cbn. split; [|repeat split; auto].
      exists []. split; auto. split; auto. intros [|i]; discriminate.
    - cbn -[numbered_key bb_prefix] in H.
      destruct (ploop n p gt_s bb c k d) as [[[c1 k1] d1]|] eqn:E; [|discriminate]. cbn [bind] in H.
      eapply ploop_spec in E; eauto. destruct E as (ps & L & -> & -> & P & R & S1).
      assert (H' : exists d2 k2 new2 old2, bloop n glob p gt_s bbs (c + n) k2 d2 = Ok (c', k', d') /\
        state d2 new2 old2 /\ k2 = length new2 /\ rest d2 = rest d /\
        new2 = new ++ boxes_of bounding_box constrain glob p bb ps /\
        old2 = skipn (length (boxes_of bounding_box constrain glob p bb ps)) old).
      { unfold boxes_of. destruct glob.
        - eexists _, _, _, _. split; [exact H|]. split.
          + apply state_set; [exact S1|]. rewrite app_length, map_length. lia.
          + rewrite !app_length, map_length. cbn [length]. split; [lia|]. split; [rewrite rest_set; auto|].
            split; [rewrite app_assoc; reflexivity|]. rewrite skipn_skipn. f_equal. lia.
        - eexists _, _, _, _. split; [exact H|]. split; [exact S1|]. rewrite app_nil_r, app_length, map_length.
          split; [lia|]. split; auto. split; auto. f_equal. lia. }
      clear H. destruct H' as (d2 & k2 & new2 & old2 & H & S2 & K2 & R2 & -> & ->).
      eapply IH in H; eauto. destruct H as (fresh & (pss & LP & EP & ->) & -> & R3 & S3).
      eexists. split; [|split; [|split]].
      + exists (ps :: pss). split; [cbn; lia|]. split; [|reflexivity].
        intros [|i] b q Hb Hq.
        * injection Hb as <-. injection Hq as <-. split; auto. intros l s Hs.
          cbn [Nat.mul]. rewrite Nat.add_0_r. auto.
        * destruct (EP i b q Hb Hq) as [Lq Pq]. split; auto. intros l s Hs.
          replace (c + Datatypes.S i * n + l) with (c + n + i * n + l) by (cbn; lia). auto.
      + cbn. lia.
      + rewrite R3. exact R2.
      + cbn [combine map concat fst snd]. rewrite <- app_assoc in S3. rewrite skipn_skipn, <- app_length in S3. exact S3.
  Qed.

  Lemma ploop_rest n p gt_s bb : forall c k d c' k' d',
    ploop n p gt_s bb c k d = Ok (c', k', d') -> rest d' = rest d.
  Proof.
    induction n as [|n IH]; intros c k d c' k' d' E; [injection E as _ _ <-; reflexivity|].
    cbn -[numbered_key bb_prefix] in E. destruct (perturb_func c _ bb); [|discriminate]. apply IH in E.
    rewrite E. apply rest_set.
  Qed.
  Lemma bloop_rest n glob p gt_s bbs : forall c k d c' k' d',
    bloop n glob p gt_s bbs c k d = Ok (c', k', d') -> rest d' = rest d.
  Proof.
    induction bbs as [|bb bbs IH]; intros c k d c' k' d' B; [injection B as _ _ <-; reflexivity|].
    cbn -[numbered_key bb_prefix] in B.
    destruct (ploop n p gt_s bb c k d) as [[[c2 k2] d2]|] eqn:E; [|discriminate]. cbn [bind] in B.
    apply ploop_rest in E. destruct glob; apply IH in B; rewrite B, ?rest_set; exact E.
  Qed.

  Definition generated_numbered (im : pimage Sh Px) : Prop :=
    exists bs, gen (plms im) = number bb_prefix bs.

  Lemma image_loop_spec n glob gt_group : forall images c images',
    image_loop bounding_box constrain perturb_func matches n glob gt_group images c = Ok images' ->
    length images' = length images /\
    forall i im im', nth_error images i = Some im -> nth_error images' i = Some im' ->
      ppx im' = ppx im /\ rest (plms im') = rest (plms im) /\
      exists gt c0, dict_get gt_group (plms im) = Some gt /\
        forall old, gen (plms im) = number bb_prefix old ->
        exists fresh,
        expected_boxes bounding_box constrain perturb_func c0 n glob (ppx im) (bounding_box gt)
          (if glob then bb_glob bounding_box matches (plms im) else [bounding_box gt]) fresh /\
        gen (plms im') = number bb_prefix (fresh ++ skipn (length fresh) old).
  Proof.
    induction images as [|im0 images IH]; intros c images' H.
    - injection H as <-. split; auto. intros [|i]; discriminate.
    - cbn [image_loop] in H. unfold dict_at in H. destruct (dict_get gt_group (plms im0)) as [gt|] eqn:G; [|discriminate].
      cbn [bind] in H.
      destruct (bloop n glob (ppx im0) _ _ c 0 (plms im0)) as [[[c1 k1] d1]|] eqn:B; [|discriminate]. cbn [bind] in H.
      destruct (image_loop _ _ _ _ _ _ _ images c1) as [r|] eqn:R; [|discriminate]. injection H as <-.
      destruct (IH _ _ R) as [L N]. split; [cbn; lia|]. intros [|i] im im' H1 H2; [|eapply N; eauto].
      injection H1 as <-. injection H2 as <-. split; [reflexivity|]. cbn [plms ppx]. split.
      + eapply bloop_rest; eauto.
      + exists gt, c. split; auto. intros old O.
        destruct (bloop_spec _ _ _ _ _ _ _ _ _ _ _ [] old B O eq_refl) as (fresh & X & _ & _ & S). exists fresh. split; auto.
  Qed.
End Boxes.

Section Flow.
  Context {Sh Px Tr Scene : Type}.
  Notation img := (pimage Sh Px).
  Variable feature : nat -> img -> res img.
  Variable scale_image : nat -> img -> res (img * Tr).
  Variable tapply : Tr -> Sh -> Sh.
  Variable align : Sh -> res Sh.
  Variable train : nat -> list img -> list Sh -> list (list Sh) -> res (list (list Sh)).
  Variable place : Px -> Sh -> Scene.
  Set Default Proof Using "Type".

  Hypothesis H_scale : forall j im im' t, scale_image j im = Ok (im', t) ->
    carried place im im' /\ forall s, place (ppx im') s = place (ppx im) (tapply t s).
  Hypothesis H_feat : forall f im im', feature f im = Ok im' -> carried place im im'.
  Hypothesis H_train : forall j imgs gts cur est, train j imgs gts cur = Ok est ->
    map (@length Sh) est = map (@length Sh) cur.
  Definition keeps_frame (f : nat) : Prop :=
    forall im im', feature f im = Ok im' -> forall s, place (ppx im') s = place (ppx im) s.

  Definition hasw (im : img) (w : list Scene) : Prop :=
    forall k x, nth_error w k = Some x -> exists s, dict_get (sdm_key k) (plms im) = Some s /\ place (ppx im) s = x.

  Lemma carried_get im im' k s : carried place im im' -> dict_get k (plms im) = Some s ->
    exists s', dict_get k (plms im') = Some s' /\ place (ppx im) s = place (ppx im') s'.
  Proof.
    unfold carried. induction 1 as [|[k1 v1] [k2 v2] d d' [Hk Hv] _ IH]; cbn; [discriminate|]. cbn in Hk, Hv. subst k2.
    destruct (String.eqb k k1); [intros [= <-]; eauto|auto].
  Qed.
  Lemma carried_hasw im im' w : carried place im im' -> hasw im w -> hasw im' w.
  Proof.
    intros C H k x Hx. destruct (H k x Hx) as (s & G & P). destruct (carried_get _ _ _ _ C G) as (s' & G' & P').
    exists s'. split; auto. congruence.
  Qed.
  Lemma carried_generated im im' : carried place im im' ->
    length (generated_bb_func im) = length (generated_bb_func im').
  Proof.
    unfold carried, generated_bb_func. rewrite !map_length.
    induction 1 as [|[k1 v1] [k2 v2] d d' [Hk Hv] _ IH]; [reflexivity|]. cbn [filter fst] in *. subst k2.
    destruct (prefix bb_prefix k1); cbn; auto.
  Qed.
  Lemma attach_from_get t : forall ss o d k, dict_get (sdm_key k) (attach_from tapply o t ss d) =
    if (k <? o) then dict_get (sdm_key k) d else
    match nth_error ss (k - o) with Some s => Some (tapply t s) | None => dict_get (sdm_key k) d end.
  Proof.
    induction ss as [|s ss IH]; intros o d k; cbn [attach_from].
    - destruct (k <? o); auto. destruct (k - o); auto.
    - rewrite IH. destruct (Nat.ltb_spec k (S o)), (Nat.ltb_spec k o); try lia.
      + apply get_set_other. intros E. apply key_inj in E. lia.
      + assert (k = o) by lia. subst. rewrite Nat.sub_diag. apply get_set_same.
      + replace (k - o) with (S (k - S o)) by lia. cbn [nth_error]. destruct (nth_error ss _); auto.
        apply get_set_other. intros E. apply key_inj in E. lia.
  Qed.
  Lemma attach_hasw p t ss d : hasw (mkPImage p (attach_from tapply 0 t ss d)) (map (fun s => place p (tapply t s)) ss).
  Proof.
    intros k x Hx. cbn [plms ppx]. rewrite attach_from_get. cbn [Nat.ltb Nat.leb]. rewrite Nat.sub_0_r.
    rewrite nth_error_map in Hx. destruct (nth_error ss k); [|discriminate]. injection Hx as <-. eauto.
  Qed.
  Lemma attach_nth : forall (images : list img) ts shapes i, length ts = length images -> length shapes = length images ->
    nth_error (attach tapply images ts shapes) i =
    match nth_error images i, nth_error ts i, nth_error shapes i with
    | Some im, Some t, Some ss => Some (mkPImage (ppx im) (attach_from tapply 0 t ss (plms im)))
    | _, _, _ => None
    end.
  Proof.
    induction images as [|im images IH]; intros [|t ts] [|ss shapes] i; cbn [length]; try discriminate.
    - intros _ _. destruct i; reflexivity.
    - intros [= H1] [= H2]. destruct i as [|i]; [reflexivity|]. cbn [attach nth_error]. auto.
  Qed.
  Lemma attach_length (images : list img) : forall ts shapes, length (attach tapply images ts shapes) = length images.
  Proof. induction images as [|im images IH]; intros [|t ts] [|ss shapes]; cbn; auto. Qed.
  Lemma read_spec n im w cs : hasw im w -> n <= length w -> read_shapes n im = Ok cs ->
    map (place (ppx im)) cs = firstn n w.
  Proof.
    unfold read_shapes. intros H L R. apply Proofs.Result.mapM_inv in R. destruct R as [RL RN]. rewrite seq_length in RL.
    apply nth_error_ext. intros k. rewrite nth_error_map. destruct (Nat.lt_ge_cases k n) as [Hk|Hk].
    - assert (S1 : nth_error (seq 0 n) k = Some k) by (rewrite (nth_error_nth' _ 0) by (rewrite seq_length; lia); rewrite seq_nth; auto).
      destruct (RN k k S1) as (s & D & Ns). rewrite Ns. cbn.
      destruct (nth_error w k) as [x|] eqn:W; [|apply nth_error_None in W; lia].
      destruct (H k x W) as (s' & G & P). unfold dict_at in D. rewrite G in D. injection D as <-.
      rewrite P. rewrite <- W. rewrite <- (firstn_skipn n w) at 1. rewrite nth_error_app1; auto. rewrite firstn_length. lia.
    - rewrite (proj2 (nth_error_None cs k)) by lia. cbn. symmetry. apply nth_error_None. rewrite firstn_length. lia.
  Qed.

  Definition source (f prev : nat) (batch : list img) (fimgs : option (list img)) : list img :=
    if f =? prev then match fimgs with Some l => l | None => batch end else batch.
  Definition wanted (imgs : list img) (est : list (list Sh)) : list (list Scene) :=
    map (fun ie => map (place (ppx (fst ie))) (snd ie)) (combine imgs est).
  Definition start_ok (n : nat) (imgs : list img) (cur : list (list Sh)) (ws : list (list Scene)) : Prop :=
    length imgs = length ws /\ length cur = length ws /\
    forall i im cs w, nth_error imgs i = Some im -> nth_error cur i = Some cs -> nth_error ws i = Some w ->
      map (place (ppx im)) cs = firstn n w.
  Definition same_frames (f : nat) (batch : list img) (fimgs : option (list img)) : Prop :=
    match fimgs with
    | None => True
    | Some l => length l = length batch /\ forall i b x, keeps_frame f -> nth_error batch i = Some b -> nth_error l i = Some x ->
                forall s, place (ppx x) s = place (ppx b) s
    end.
  Fixpoint left_frames_kept (fs : list nat) : Prop :=
    match fs with f :: ((f' :: _) as r) => (f <> f' -> keeps_frame f) /\ left_frames_kept r | _ => True end.

  Lemma nth_combine {A B} (l : list A) (l' : list B) i a b :
    nth_error l i = Some a -> nth_error l' i = Some b -> nth_error (combine l l') i = Some (a, b).
  Proof. revert l' i. induction l as [|x l IH]; intros [|y l'] [|i]; cbn; try discriminate; auto. congruence. Qed.
  Lemma nth_combine_inv {A B} (l : list A) (l' : list B) i a b :
    nth_error (combine l l') i = Some (a, b) -> nth_error l i = Some a /\ nth_error l' i = Some b.
  Proof. revert l' i. induction l as [|x l IH]; intros [|y l'] [|i]; cbn; try discriminate; auto. intros [= -> ->]. auto. Qed.
  Lemma nth_ex {A} (l : list A) i : i < length l -> exists x, nth_error l i = Some x.
  Proof. intros H. destruct (nth_error l i) eqn:E; eauto. apply nth_error_None in E. lia. Qed.
  Lemma nth_lt {A} (l : list A) i x : nth_error l i = Some x -> i < length l.
  Proof. intros H. apply nth_error_Some. congruence. Qed.
  Lemma map_length_nth (l l' : list (list Sh)) i a b : map (@length Sh) l = map (@length Sh) l' ->
    nth_error l i = Some a -> nth_error l' i = Some b -> length a = length b.
  Proof.
    intros H Ha Hb. apply (f_equal (fun m => nth_error m i)) in H. rewrite !nth_error_map, Ha, Hb in H. cbn in H. congruence.
  Qed.

  Notation loop := (scale_loop feature scale_image tapply align train).

  (** feature images of one step *)
  Definition fstep (j f prev : nat) (batch : list img) (fimgs : option (list img)) : res (option (list img)) :=
    if (j =? 0) && (f =? 0) then Ok None
    else if (j =? 0) || negb (f =? prev) then let? l := mapM (feature f) batch in Ok (Some l)
    else Ok fimgs.
  Definition fcur (batch : list img) (fimgs : option (list img)) : list img := match fimgs with Some l => l | None => batch end.
  Definition attached (f f' : nat) (batch : list img) (fimgs : option (list img)) ts est :=
    if negb (f' =? f) then (attach tapply batch ts est, fimgs)
    else match fimgs with
         | Some l => (batch, Some (attach tapply l ts est))
         | None => (attach tapply batch ts est, None)
         end.
  Lemma loop_inv n group j f fs prev batch fimgs tr final :
    loop n group j (f :: fs) prev batch fimgs = Ok (tr, final) ->
    exists fimgs' scaled gts cur est,
      fstep j f prev batch fimgs = Ok fimgs' /\
      mapM (scale_image j) (fcur batch fimgs') = Ok scaled /\
      mapM (fun im => dict_at group (plms im)) (map fst scaled) = Ok gts /\
      (if j =? 0 then mapM (first_shapes align) (map fst scaled) else mapM (read_shapes n) (map fst scaled)) = Ok cur /\
      train j (map fst scaled) gts cur = Ok est /\
      match fs with
      | [] => tr = [(map fst scaled, cur, est)] /\ clean n batch = Ok final
      | f' :: _ => exists rest, tr = (map fst scaled, cur, est) :: rest /\
          loop n group (S j) fs f (fst (attached f f' batch fimgs' (map snd scaled) est))
               (snd (attached f f' batch fimgs' (map snd scaled) est)) = Ok (rest, final)
      end.
  Proof.
    cbn [scale_loop]. fold (fstep j f prev batch fimgs). intros H.
    destruct (fstep j f prev batch fimgs) as [fimgs'|] eqn:E1; [|discriminate]. cbn [bind] in H. fold (fcur batch fimgs') in H.
    destruct (mapM (scale_image j) (fcur batch fimgs')) as [scaled|] eqn:E2; [|discriminate]. cbn [bind] in H.
    destruct (mapM _ (map fst scaled)) as [gts|] eqn:E3; [|discriminate]. cbn [bind] in H.
    destruct (if j =? 0 then _ else _) as [cur|] eqn:E4; [|discriminate]. cbn [bind] in H.
    destruct (train j _ gts cur) as [est|] eqn:E5; [|discriminate]. cbn [bind] in H.
    exists fimgs', scaled, gts, cur, est. do 5 (split; [auto; fail|]).
    destruct fs as [|f' fs].
    - destruct (clean n batch) as [b|] eqn:E6; [|discriminate]. injection H as <- <-. auto.
    - fold (attached f f' batch fimgs' (map snd scaled) est) in H.
      destruct (attached f f' batch fimgs' (map snd scaled) est) as [b' g'] eqn:E6. cbn [fst snd].
      destruct (loop n group (S j) (f' :: fs) f b' g') as [[r fin]|] eqn:E7; [|discriminate].
      injection H as <- <-. eauto.
  Qed.

  Lemma fcur_length f batch fimgs : same_frames f batch fimgs -> length (fcur batch fimgs) = length batch.
  Proof. destruct fimgs; cbn; tauto. Qed.
  Lemma fcur_frames f batch fimgs i b x : same_frames f batch fimgs -> keeps_frame f ->
    nth_error batch i = Some b -> nth_error (fcur batch fimgs) i = Some x -> forall s, place (ppx x) s = place (ppx b) s.
  Proof.
    destruct fimgs as [l|]; cbn.
    - intros [_ H] K. intros H1 H2 s. apply (H i b x); auto.
    - congruence.
  Qed.
  Lemma attach_ppx (images : list img) ts est i im im' : length ts = length images -> length est = length images ->
    nth_error images i = Some im -> nth_error (attach tapply images ts est) i = Some im' -> ppx im' = ppx im.
  Proof.
    intros L1 L2 H1 H2. rewrite attach_nth in H2 by auto. rewrite H1 in H2.
    destruct (nth_error ts i); [|discriminate]. destruct (nth_error est i); [|discriminate]. injection H2 as <-. reflexivity.
  Qed.
  Lemma wanted_length imgs est : length est = length imgs -> length (wanted imgs est) = length imgs.
  Proof. unfold wanted. rewrite map_length, combine_length. lia. Qed.
  Lemma wanted_nth imgs est i w : nth_error (wanted imgs est) i = Some w ->
    exists im es, nth_error imgs i = Some im /\ nth_error est i = Some es /\ w = map (place (ppx im)) es.
  Proof.
    unfold wanted. rewrite nth_error_map. destruct (nth_error (combine imgs est) i) as [[im es]|] eqn:E; [|discriminate].
    apply nth_combine_inv in E. intros [= <-]. exists im, es. tauto.
  Qed.

  Lemma after_training f f' batch fimgs j scaled est :
    same_frames f batch fimgs -> (f <> f' -> keeps_frame f) ->
    mapM (scale_image j) (fcur batch fimgs) = Ok scaled -> length est = length batch ->
    let b' := fst (attached f f' batch fimgs (map snd scaled) est) in
    let g' := snd (attached f f' batch fimgs (map snd scaled) est) in
    same_frames f b' g' /\ length b' = length batch /\
    forall i im w, nth_error (source f' f b' g') i = Some im ->
      nth_error (wanted (map fst scaled) est) i = Some w -> hasw im w.
  Proof using H_scale.
    intros SF K SC L b' g'. pose proof (fcur_length _ _ _ SF) as FL.
    apply Proofs.Result.mapM_inv in SC. destruct SC as [SL SN].
    assert (X : forall i fi t es im0, nth_error (fcur batch fimgs) i = Some fi -> nth_error (map snd scaled) i = Some t ->
                nth_error (map fst scaled) i = Some im0 -> forall s, place (ppx im0) s = place (ppx fi) (tapply t s) /\ es = es :> list Sh).
    { intros i fi t es im0 H1 H2 H3 s. split; auto. destruct (SN i fi H1) as ([im1 t1] & Q & N).
      rewrite nth_error_map, N in H2, H3. injection H2 as <-. injection H3 as <-. apply (proj2 (H_scale _ _ _ _ Q)). }
    assert (TL : length (map snd scaled) = length batch) by (rewrite map_length; lia).
    subst b' g'. unfold attached, source. destruct (Nat.eqb_spec f' f) as [->|N]; cbn [negb].
    - destruct fimgs as [l|]; cbn [fst snd same_frames fcur] in *.
      + destruct SF as [_ SF]. repeat split.
        * rewrite attach_length. exact FL.
        * intros i b x Kf H1 H2 s. destruct (nth_ex l i) as [fi Hfi]; [apply nth_lt in H1; lia|].
          rewrite (attach_ppx l (map snd scaled) est i fi x) by (auto; lia). eapply SF; eauto.
        * intros i im w H1 H2. apply wanted_nth in H2. destruct H2 as (im0 & es & I0 & E0 & ->).
          rewrite attach_nth in H1 by lia. destruct (nth_error l i) as [fi|] eqn:Hfi; [|discriminate].
          destruct (nth_error (map snd scaled) i) as [t|] eqn:Ht; [|discriminate]. rewrite E0 in H1. injection H1 as <-.
          intros k x Hx. apply attach_hasw. rewrite nth_error_map in Hx |- *. destruct (nth_error es k); [|discriminate].
          cbn in *. rewrite <- Hx. f_equal. symmetry. eapply (X i fi t es im0); eauto.
      + repeat split; [apply attach_length|]. intros i im w H1 H2. apply wanted_nth in H2. destruct H2 as (im0 & es & I0 & E0 & ->).
        rewrite attach_nth in H1 by lia. destruct (nth_error batch i) as [fi|] eqn:Hfi; [|discriminate].
        destruct (nth_error (map snd scaled) i) as [t|] eqn:Ht; [|discriminate]. rewrite E0 in H1. injection H1 as <-.
        intros k x Hx. apply attach_hasw. rewrite nth_error_map in Hx |- *. destruct (nth_error es k); [|discriminate].
        cbn in *. rewrite <- Hx. f_equal. symmetry. eapply (X i fi t es im0); eauto.
    - cbn [fst snd]. split; [|split].
      + destruct fimgs as [l|]; cbn [same_frames fcur] in *; auto. destruct SF as [_ SF]. split; [rewrite attach_length; auto|].
        intros i b x Kf H1 H2 s. destruct (nth_ex batch i) as [bi Hbi]; [apply nth_lt in H2; lia|].
        rewrite (attach_ppx batch (map snd scaled) est i bi b) by (auto; lia). eapply SF; eauto.
      + apply attach_length.
      + intros i im w H1 H2. apply wanted_nth in H2. destruct H2 as (im0 & es & I0 & E0 & ->).
        rewrite attach_nth in H1 by lia. destruct (nth_error batch i) as [bi|] eqn:Hbi; [|discriminate].
        destruct (nth_error (map snd scaled) i) as [t|] eqn:Ht; [|discriminate]. rewrite E0 in H1. injection H1 as <-.
        destruct (nth_ex (fcur batch fimgs) i) as [fi Hfi]; [apply nth_lt in Hbi; lia|].
        intros k x Hx. apply attach_hasw. rewrite nth_error_map in Hx |- *. destruct (nth_error es k); [|discriminate].
        cbn in *. rewrite <- Hx. f_equal. rewrite (proj1 (X i fi t es im0 Hfi Ht I0 _)). symmetry.
        eapply fcur_frames; eauto.
  Qed.

  Lemma fstep_frames j f prev batch fimgs fimgs' : fstep j f prev batch fimgs = Ok fimgs' ->
    (j <> 0 -> same_frames prev batch fimgs) -> same_frames f batch fimgs'.
  Proof.
    unfold fstep. intros H S. destruct (Nat.eqb_spec j 0) as [->|J]; cbn [orb andb] in H.
    - destruct (f =? 0); [injection H as <-; exact I|]. destruct (mapM (feature f) batch) as [l|] eqn:E; [|discriminate].
      injection H as <-. apply Proofs.Result.mapM_inv in E. destruct E as [EL EN]. split; auto.
      intros i b x K H1 H2 s. destruct (EN i b H1) as (x' & F & N). rewrite N in H2. injection H2 as <-. apply K; auto.
    - destruct (Nat.eqb_spec f prev) as [->|N]; cbn [negb] in H; [injection H as <-; auto|].
      destruct (mapM (feature f) batch) as [l|] eqn:E; [|discriminate].
      injection H as <-. apply Proofs.Result.mapM_inv in E. destruct E as [EL EN]. split; auto.
      intros i b x K H1 H2 s. destruct (EN i b H1) as (x' & F & N'). rewrite N' in H2. injection H2 as <-. apply K; auto.
  Qed.
  (** the feature images have what the source images have *)
  Lemma fstep_hasw j f prev batch fimgs fimgs' i w im : fstep (S j) f prev batch fimgs = Ok fimgs' ->
    (forall im, nth_error (source f prev batch fimgs) i = Some im -> hasw im w) ->
    nth_error (fcur batch fimgs') i = Some im -> hasw im w.
  Proof using H_feat.
    unfold fstep, source. cbn [Nat.eqb andb orb]. intros H S N. destruct (f =? prev); cbn [negb] in H.
    - injection H as <-. apply S. exact N.
    - destruct (mapM (feature f) batch) as [l|] eqn:E; [|discriminate]. injection H as <-. cbn [fcur] in N.
      apply Proofs.Result.mapM_inv in E. destruct E as [EL EN].
      destruct (nth_ex batch i) as [b Hb]; [apply nth_lt in N; lia|]. destruct (EN i b Hb) as (x & F & Nx).
      assert (x = im) by congruence. subst. eapply carried_hasw; eauto.
  Qed.

  Lemma nth_map_fst (scaled : list (img * Tr)) i im : nth_error (map fst scaled) i = Some im ->
    exists t, nth_error scaled i = Some (im, t).
  Proof. rewrite nth_error_map. destruct (nth_error scaled i) as [[a t]|]; cbn; [|discriminate]. intros [= ->]. eauto. Qed.

  Lemma scaled_pre j l scaled i im t : mapM (scale_image j) l = Ok scaled -> nth_error scaled i = Some (im, t) ->
    exists im0, nth_error l i = Some im0 /\ scale_image j im0 = Ok (im, t).
  Proof.
    intros H N. apply Proofs.Result.mapM_inv in H. destruct H as [HL HN].
    destruct (nth_ex l i) as [im0 H0]; [apply nth_lt in N; lia|]. destruct (HN i im0 H0) as (x & F & Nx). exists im0. split; congruence.
  Qed.

  Lemma continues_of_start n imgs cur est imgs' cur' est' : length est = length imgs ->
    start_ok n imgs' cur' (wanted imgs est) -> continues_first place n (imgs, cur, est) (imgs', cur', est').
  Proof.
    intros L (S1 & S2 & S3). rewrite wanted_length in * by auto. repeat split; try lia.
    intros i im im' es cs H1 H2 H3 H4. rewrite (S3 i im' cs (map (place (ppx im)) es)); auto.
    unfold wanted. rewrite nth_error_map, (nth_combine _ _ i im es) by auto. reflexivity.
  Qed.

  Lemma flow_later n group : forall fs f j prev batch fimgs tr final ws,
    loop n group (S j) (f :: fs) prev batch fimgs = Ok (tr, final) ->
    left_frames_kept (f :: fs) -> same_frames prev batch fimgs -> length ws = length batch ->
    (forall i im w, nth_error (source f prev batch fimgs) i = Some im -> nth_error ws i = Some w -> hasw im w) ->
    (forall i w, nth_error ws i = Some w -> n <= length w) ->
    (exists imgs cur est rest, tr = (imgs, cur, est) :: rest /\ start_ok n imgs cur ws) /\
    chain (continues_first place n) tr.
  Proof using H_scale H_feat H_train.
    induction fs as [|f' fs IH]; intros f j prev batch fimgs tr final ws HL LK SF WL HW HN.
    all: apply loop_inv in HL; destruct HL as (fimgs' & scaled & gts & cur & est & E1 & E2 & E3 & E4 & E5 & E6).
    all: cbn [Nat.eqb] in E4.
    all: assert (SF' : same_frames f batch fimgs') by (eapply fstep_frames; eauto).
    all: pose proof (fcur_length _ _ _ SF') as FL.
    all: assert (SL : length scaled = length batch) by (apply Proofs.Result.mapM_inv in E2; destruct E2; lia).
    all: assert (CL : length cur = length batch) by (apply Proofs.Result.mapM_inv in E4; rewrite map_length in E4; destruct E4; lia).
    all: assert (ST : start_ok n (map fst scaled) cur ws).
    1,3: (split; [rewrite map_length; lia|]; split; [lia|]; intros i im cs w H1 H2 H3;
      destruct (nth_map_fst _ _ _ H1) as [t Ht]; destruct (scaled_pre _ _ _ _ _ _ E2 Ht) as (im0 & N0 & S0);
      apply Proofs.Result.mapM_inv in E4; destruct E4 as [_ E4]; destruct (E4 i im H1) as (cs' & R & Nc);
      assert (cs' = cs) by congruence; subst cs';
      apply read_spec; [|eapply HN; eauto|auto];
      eapply carried_hasw; [apply (H_scale _ _ _ _ S0)|];
      eapply fstep_hasw; eauto).
    - destruct E6 as [-> _]. split; [exists (map fst scaled), cur, est, []; auto|exact I].
    - destruct E6 as (rest & -> & HL). split; [exists (map fst scaled), cur, est, rest; auto|].
      destruct LK as [LK1 LK2].
      assert (EL : length est = length batch).
      { apply H_train in E5. apply (f_equal (@length nat)) in E5. rewrite !map_length in E5. lia. }
      destruct (after_training f f' batch fimgs' (S j) scaled est SF' LK1 E2 EL) as (A1 & A2 & A3).
      eapply IH with (ws := wanted (map fst scaled) est) in HL; eauto.
      + destruct HL as [(imgs' & cur' & est' & r & -> & S') CH]. split; [|exact CH].
        apply continues_of_start; auto. rewrite map_length. lia.
      + rewrite wanted_length; rewrite map_length; lia.
      + intros i w Hw. apply wanted_nth in Hw. destruct Hw as (im & es & I0 & E0 & ->). rewrite map_length.
        destruct (nth_ex cur i) as [cs Hc]; [apply nth_lt in E0; lia|]. destruct (nth_ex ws i) as [w Hw]; [apply nth_lt in E0; lia|].
        apply H_train in E5. rewrite (map_length_nth _ _ _ _ _ E5 E0 Hc).
        destruct ST as (_ & _ & ST). specialize (ST i im cs w I0 Hc Hw). apply (f_equal (@length Scene)) in ST.
        rewrite map_length, firstn_length in ST. specialize (HN i w Hw). lia.
  Qed.

  Lemma flow n group fs f batch fimgs prev tr final :
    loop n group 0 (f :: fs) prev batch fimgs = Ok (tr, final) ->
    left_frames_kept (f :: fs) ->
    (forall im, In im batch -> n <= length (generated_bb_func im)) ->
    chain (continues_first place n) tr.
  Proof using H_scale H_feat H_train.
    intros HL LK HN. apply loop_inv in HL. destruct HL as (fimgs' & scaled & gts & cur & est & E1 & E2 & E3 & E4 & E5 & E6).
    cbn [Nat.eqb] in E4.
    assert (SF' : same_frames f batch fimgs') by (eapply fstep_frames; eauto; lia).
    pose proof (fcur_length _ _ _ SF') as FL.
    assert (SL : length scaled = length batch) by (apply Proofs.Result.mapM_inv in E2; destruct E2; lia).
    assert (CL : length cur = length batch) by (apply Proofs.Result.mapM_inv in E4; rewrite map_length in E4; destruct E4; lia).
    destruct fs as [|f' fs]; [destruct E6 as [-> _]; exact I|].
    destruct E6 as (rest & -> & HL). destruct LK as [LK1 LK2].
    assert (EL : length est = length batch).
    { apply H_train in E5. apply (f_equal (@length nat)) in E5. rewrite !map_length in E5. lia. }
    destruct (after_training f f' batch fimgs' 0 scaled est SF' LK1 E2 EL) as (A1 & A2 & A3).
    eapply flow_later with (ws := wanted (map fst scaled) est) in HL; eauto.
    - destruct HL as [(imgs' & cur' & est' & r & -> & S') CH]. split; [|exact CH].
      apply continues_of_start; auto. rewrite map_length. lia.
    - rewrite wanted_length; rewrite map_length; lia.
    - intros i w Hw. apply wanted_nth in Hw. destruct Hw as (im & es & I0 & E0 & ->). rewrite map_length.
      destruct (nth_ex cur i) as [cs Hc]; [apply nth_lt in E0; lia|].
      apply H_train in E5. rewrite (map_length_nth _ _ _ _ _ E5 E0 Hc).
      apply Proofs.Result.mapM_inv in E4. destruct E4 as [_ E4]. destruct (E4 i im I0) as (cs' & R & Nc).
      assert (cs' = cs) by congruence. subst cs'. unfold first_shapes in R. apply Proofs.Result.mapM_inv in R.
      rewrite (proj1 R). destruct (nth_map_fst _ _ _ I0) as [t Ht]. destruct (scaled_pre _ _ _ _ _ _ E2 Ht) as (im0 & N0 & S0).
      rewrite <- (carried_generated im0 im) by (apply (H_scale _ _ _ _ S0)).
      unfold fstep in E1. cbn [Nat.eqb orb andb] in E1. destruct (f =? 0).
      + injection E1 as <-. apply HN. eapply nth_error_In; eauto.
      + destruct (mapM (feature f) batch) as [l|] eqn:E; [|discriminate]. injection E1 as <-. cbn [fcur] in N0.
        apply Proofs.Result.mapM_inv in E. destruct E as [EL' EN].
        destruct (nth_ex batch i) as [b Hb]; [apply nth_lt in N0; lia|]. destruct (EN i b Hb) as (x & F & Nx).
        assert (x = im0) by congruence. subst. rewrite <- (carried_generated b im0) by eauto.
        apply HN. eapply nth_error_In; eauto.
  Qed.

  (** *** Cleaning *)
  Definition no_sdm (d : dict Sh) : Prop := forall k, dict_get (sdm_key k) d = None.
  Lemma set_app_none k v (d r : dict Sh) : dict_get k d = None -> dict_set k v (d ++ r) = d ++ dict_set k v r.
  Proof.
    induction d as [|[k' v'] d IH]; cbn; auto. destruct (String.eqb k k'); [discriminate|]. intros H. rewrite IH; auto.
  Qed.
  Lemma remove_app_none k (d r : dict Sh) : dict_get k d = None -> dict_remove k (d ++ r) = d ++ dict_remove k r.
  Proof.
    induction d as [|[k' v'] d IH]; cbn; auto. destruct (String.eqb k k'); [discriminate|]. intros H. rewrite IH; auto.
  Qed.
  Lemma attach_number t d0 : no_sdm d0 -> forall ss new old,
    attach_from tapply (length new) t ss (d0 ++ number sdm_prefix (new ++ old)) =
    d0 ++ number sdm_prefix (new ++ map (tapply t) ss ++ skipn (length ss) old).
  Proof.
    intros ND. induction ss as [|s ss IH]; intros new old; [reflexivity|]. cbn [attach_from].
    rewrite set_app_none by apply ND. unfold sdm_key.
    pose proof (set_number sdm_prefix 0 new old (tapply t s)) as SN. cbn [Nat.add] in SN.
    change (number sdm_prefix (new ++ old)) with (number_from sdm_prefix 0 (new ++ old)). rewrite SN.
    replace (S (length new)) with (length (new ++ [tapply t s])) by (rewrite app_length; cbn; lia).
    replace (new ++ tapply t s :: skipn 1 old) with ((new ++ [tapply t s]) ++ skipn 1 old) by (rewrite <- app_assoc; reflexivity).
    change (number_from sdm_prefix 0) with (@number Sh sdm_prefix). rewrite IH.
    rewrite <- app_assoc. cbn [app map length]. do 4 f_equal. f_equal. destruct old; [destruct ss; reflexivity|reflexivity].
  Qed.
  Lemma del_number d0 : no_sdm d0 -> forall vals o,
    del_keys (seq o (length vals)) (d0 ++ number_from sdm_prefix o vals) = Ok d0.
  Proof.
    intros ND. induction vals as [|v vals IH]; intros o; cbn [length seq del_keys].
    - cbn. rewrite app_nil_r. reflexivity.
    - unfold dict_del. unfold sdm_key. rewrite get_app, ND, number_from_get, Nat.ltb_irrefl, Nat.sub_diag. cbn [nth_error bind].
      rewrite remove_app_none by apply ND. unfold number_from at 1. cbn [length seq combine map fst snd dict_remove].
      rewrite String.eqb_refl. apply IH.
  Qed.
  Definition tagged (m : nat) (im0 im : img) : Prop :=
    ppx im = ppx im0 /\ exists vals, length vals = m /\ plms im = plms im0 ++ number sdm_prefix vals.

  Lemma clean_tagged n m batch0 batch final : (m = n \/ m = 0) -> Forall (fun im => no_sdm (plms im)) batch0 ->
    Forall2 (tagged m) batch0 batch -> clean n batch = Ok final -> final = batch0.
  Proof.
    intros M ND F C. unfold clean in C. destruct F as [|im0 im batch0 batch T F]; [discriminate|].
    cbn [nth_res nth_error bind] in C. inversion ND as [|x y N1 N2]; subst x y.
    assert (BACK : forall b0 b, Forall2 (tagged 0) b0 b -> b = b0).
    { induction 1 as [|x y b0 b (P & [|? ?] & L & D) _ IH]; auto; [|discriminate]. rewrite app_nil_r in D.
      destruct x, y; cbn in *. congruence. }
    destruct T as (P & vals & L & D). rewrite D, get_app, N1 in C. unfold sdm_key in C.
    change (number sdm_prefix vals) with (number_from sdm_prefix 0 vals) in C. rewrite number_from_get in C. cbn [Nat.ltb Nat.leb Nat.sub] in C.
    destruct vals as [|v vals].
    - cbn in C. injection C as <-. cbn in L. subst m. f_equal; [|apply BACK; auto].
      rewrite app_nil_r in D. destruct im, im0; cbn in *; congruence.
    - cbn [nth_error] in C. assert (m = n) by (destruct M; [auto|cbn in L; lia]). subst m.
      assert (X : forall b0 b, Forall (fun im => no_sdm (plms im)) b0 -> Forall2 (tagged n) b0 b ->
        mapM (fun im => let? d := del_keys (seq 0 n) (plms im) in Ok (mkPImage (ppx im) d)) b = Ok b0).
      { intros b0 b NB T2. induction T2 as [|x y b0 b (Px' & vs & Lv & Dv) _ IH]; [reflexivity|].
        inversion NB as [|u u' NB1 NB2]; subst u u'. cbn [mapM]. rewrite Dv. pose proof (del_number (plms x) NB1 vs 0) as DN. rewrite Lv in DN. unfold number. unfold number_from in DN. rewrite DN.
        cbn [bind]. rewrite IH by auto. cbn [bind]. destruct x; cbn in *. rewrite Px'. reflexivity. }
      rewrite (X (im0 :: batch0) (im :: batch)) in C; [congruence|auto|]. rewrite H in F. constructor; auto. split; auto. exists (v :: vals). auto.
  Qed.

  Lemma attach_tagged n m batch0 : forall batch ts est, (m = n \/ m = 0) -> Forall (fun im => no_sdm (plms im)) batch0 ->
    Forall2 (tagged m) batch0 batch -> length ts = length batch -> length est = length batch ->
    Forall (fun ss => length ss = n) est -> Forall2 (tagged n) batch0 (attach tapply batch ts est).
  Proof.
    intros batch ts est M ND F. revert ts est. induction F as [|im0 im batch0 batch (P & vals & L & D) F IH]; intros [|t ts] [|ss est];
      cbn [length]; try discriminate; intros H1 H2 FE; [constructor|].
    inversion ND; inversion FE; subst. cbn [attach]. constructor; [|apply IH; auto].
    split; [auto|]. cbn [plms]. rewrite D. exists (map (tapply t) ss ++ skipn (length ss) vals). split.
    - rewrite app_length, map_length, skipn_length. lia.
    - apply (attach_number t (plms im0) H3 ss [] vals).
  Qed.

  Lemma counts_eq n (est cur : list (list Sh)) : map (@length Sh) est = map (@length Sh) cur ->
    Forall (fun ss => length ss = n) cur -> Forall (fun ss => length ss = n) est.
  Proof.
    revert cur. induction est as [|e est IH]; intros [|c cur]; cbn; try discriminate; intros E F; constructor;
      inversion F; subst; injection E as E1 E2; [auto|eapply IH; eauto].
  Qed.

  Lemma clean_flow n group batch0 : Forall (fun im => no_sdm (plms im)) batch0 ->
    forall fs f j prev batch fimgs tr final m, (m = n \/ m = 0) ->
    loop n group j (f :: fs) prev batch fimgs = Ok (tr, final) ->
    (j <> 0 -> same_frames prev batch fimgs) ->
    (j = 0 -> forall im, In im batch -> length (generated_bb_func im) = n) ->
    Forall2 (tagged m) batch0 batch -> final = batch0.
  Proof using H_scale H_feat H_train.
    intros ND. induction fs as [|f' fs IH]; intros f j prev batch fimgs tr final m M HL SF HN TG.
    all: apply loop_inv in HL; destruct HL as (fimgs' & scaled & gts & cur & est & E1 & E2 & E3 & E4 & E5 & E6).
    - destruct E6 as [_ C]. eapply clean_tagged; eauto.
    - destruct E6 as (rest & -> & HL).
      assert (SF' : same_frames f batch fimgs') by (eapply fstep_frames; eauto).
      pose proof (fcur_length _ _ _ SF') as FL.
      assert (SL : length scaled = length batch) by (apply Proofs.Result.mapM_inv in E2; destruct E2; lia).
      assert (CL : length cur = length batch).
      { destruct (j =? 0); apply Proofs.Result.mapM_inv in E4; rewrite map_length in E4; destruct E4; lia. }
      assert (EL : length est = length batch).
      { apply H_train in E5. apply (f_equal (@length nat)) in E5. rewrite !map_length in E5. lia. }
      assert (CN : Forall (fun ss => length ss = n) est).
      { eapply counts_eq; [eapply H_train; eauto|]. apply Forall_forall. intros cs Hc. apply In_nth_error in Hc. destruct Hc as [i Hc].
        destruct (nth_ex (map fst scaled) i) as [im Him]; [rewrite map_length; apply nth_lt in Hc; lia|].
        destruct (Nat.eqb_spec j 0) as [->|J].
        - apply Proofs.Result.mapM_inv in E4. destruct E4 as [_ E4]. destruct (E4 i im Him) as (cs' & R & Nc).
          assert (cs' = cs) by congruence. subst cs'. apply Proofs.Result.mapM_inv in R. rewrite (proj1 R).
          destruct (nth_map_fst _ _ _ Him) as [t Ht]. destruct (scaled_pre _ _ _ _ _ _ E2 Ht) as (im0 & N0 & S0).
          rewrite <- (carried_generated im0 im) by (apply (H_scale _ _ _ _ S0)).
          unfold fstep in E1. cbn [Nat.eqb orb andb] in E1. destruct (f =? 0).
          + injection E1 as <-. apply HN; auto. eapply nth_error_In; eauto.
          + destruct (mapM (feature f) batch) as [l|] eqn:E; [|discriminate]. injection E1 as <-. cbn [fcur] in N0.
            apply Proofs.Result.mapM_inv in E. destruct E as [EL' EN].
            destruct (nth_ex batch i) as [b Hb]; [apply nth_lt in N0; lia|]. destruct (EN i b Hb) as (x & F & Nx).
            assert (x = im0) by congruence. subst. rewrite <- (carried_generated b im0) by eauto.
            apply HN; auto. eapply nth_error_In; eauto.
        - apply Proofs.Result.mapM_inv in E4. destruct E4 as [_ E4]. destruct (E4 i im Him) as (cs' & R & Nc).
          assert (cs' = cs) by congruence. subst cs'. apply Proofs.Result.mapM_inv in R. rewrite (proj1 R). apply seq_length. }
      assert (AT : Forall2 (tagged n) batch0 (attach tapply batch (map snd scaled) est)).
      { eapply attach_tagged; eauto. rewrite map_length. lia. }
      assert (Y : exists m', (m' = n \/ m' = 0) /\ Forall2 (tagged m') batch0 (fst (attached f f' batch fimgs' (map snd scaled) est)) /\
                  same_frames f (fst (attached f f' batch fimgs' (map snd scaled) est)) (snd (attached f f' batch fimgs' (map snd scaled) est))).
      { unfold attached. destruct (f' =? f); cbn [negb].
        - destruct fimgs' as [l|]; cbn [fst snd].
          + exists m. split; auto. split; auto. destruct SF' as [S1 S2]. split; [rewrite attach_length; auto|].
            intros i b x Kf H1 H2 s. destruct (nth_ex l i) as [fi Hfi]; [apply nth_lt in H1; lia|].
            rewrite (attach_ppx l (map snd scaled) est i fi x) by (rewrite ?map_length; cbn [fcur] in FL; auto; lia). eapply S2; eauto.
          + exists n. auto.
        - cbn [fst snd]. exists n. split; auto. split; auto. destruct fimgs' as [l|]; [|exact I].
          destruct SF' as [S1 S2]. split; [rewrite attach_length; auto|].
          intros i b x Kf H1 H2 s. destruct (nth_ex batch i) as [bi Hbi]; [apply nth_lt in H2; lia|].
          rewrite (attach_ppx batch (map snd scaled) est i bi b) by (rewrite ?map_length; auto; lia). eapply S2; eauto. }
      destruct Y as (m' & M' & T' & SF''). eapply IH; eauto. discriminate.
  Qed.

  Lemma counts n group : forall fs f j prev batch fimgs tr final,
    loop n group j (f :: fs) prev batch fimgs = Ok (tr, final) ->
    (j = 0 -> forall im, In im batch -> length (generated_bb_func im) = n) ->
    Forall (fun t : scale_trace => Forall (fun ss => length ss = n) (snd t)) tr.
  Proof using H_scale H_feat H_train.
    induction fs as [|f' fs IH]; intros f j prev batch fimgs tr final HL HN.
    all: apply loop_inv in HL; destruct HL as (fimgs' & scaled & gts & cur & est & E1 & E2 & E3 & E4 & E5 & E6).
    all: assert (CN : Forall (fun ss => length ss = n) est).
    1,3: eapply counts_eq; [eapply H_train; eauto|]; apply Forall_forall; intros cs Hc; apply In_nth_error in Hc; destruct Hc as [i Hc];
        assert (CL : length cur = length (map fst scaled)) by
          (destruct (j =? 0); apply Proofs.Result.mapM_inv in E4; destruct E4; lia);
        destruct (nth_ex (map fst scaled) i) as [im Him]; [apply nth_lt in Hc; lia|];
        destruct (Nat.eqb_spec j 0) as [->|J];
        [ apply Proofs.Result.mapM_inv in E4; destruct E4 as [_ E4]; destruct (E4 i im Him) as (cs' & R & Nc);
          assert (cs' = cs) by congruence; subst cs'; apply Proofs.Result.mapM_inv in R; rewrite (proj1 R);
          destruct (nth_map_fst _ _ _ Him) as [t Ht]; destruct (scaled_pre _ _ _ _ _ _ E2 Ht) as (im0 & N0 & S0);
          rewrite <- (carried_generated im0 im) by (apply (H_scale _ _ _ _ S0));
          unfold fstep in E1; cbn [Nat.eqb orb andb] in E1; destruct (f =? 0);
          [ injection E1 as <-; apply HN; auto; eapply nth_error_In; eauto
          | destruct (mapM (feature f) batch) as [l|] eqn:E; [|discriminate]; injection E1 as <-; cbn [fcur] in N0;
            apply Proofs.Result.mapM_inv in E; destruct E as [EL' EN];
            destruct (nth_ex batch i) as [b Hb]; [apply nth_lt in N0; lia|]; destruct (EN i b Hb) as (x & F & Nx);
            assert (x = im0) by congruence; subst; rewrite <- (carried_generated b im0) by eauto;
            apply HN; auto; eapply nth_error_In; eauto ]
        | apply Proofs.Result.mapM_inv in E4; destruct E4 as [_ E4]; destruct (E4 i im Him) as (cs' & R & Nc);
          assert (cs' = cs) by congruence; subst cs'; apply Proofs.Result.mapM_inv in R; rewrite (proj1 R); apply seq_length ].
    - destruct E6 as [-> _]. constructor; auto.
    - destruct E6 as (rest & -> & HL). constructor; auto. eapply IH; eauto. discriminate.
  Qed.

  Lemma first_to_all n tr : chain (continues_first place n) tr ->
    Forall (fun t : scale_trace => Forall (fun ss => length ss = n) (snd t)) tr -> chain (continues place) tr.
  Proof.
    induction tr as [|[[imgs cur] est] [|[[imgs' cur'] est'] tr] IH]; auto. intros [C1 C2] F. inversion F; subst.
    split; [|apply IH; auto]. destruct C1 as (L1 & L2 & L3 & C). repeat (split; auto).
    intros i im im' es cs H3 H4 H5 H6. rewrite (C i im im' es cs) by auto. cbn [snd] in *.
    rewrite Forall_forall in H1. rewrite <- (H1 es) by (eapply nth_error_In; eauto).
    rewrite <- (map_length (place (ppx im)) es). apply firstn_all.
  Qed.

  (** Without a glob every image gets n boxes. *)
  Lemma no_glob_count bounding_box constrain perturb_func matches (images : list img) n gt_group images' :
    generate_perturbations_from_gt bounding_box constrain perturb_func matches images n gt_group false = Ok images' ->
    (forall im, In im images -> generated_bb_func im = []) ->
    forall im, In im images' -> length (generated_bb_func im) = n.
  Proof.
    unfold generate_perturbations_from_gt. cbn [bind Nat.eqb]. intros H N im' Hi.
    apply image_loop_spec in H. destruct H as [L H]. apply In_nth_error in Hi. destruct Hi as [i Hi].
    destruct (nth_ex images i) as [im Him]; [apply nth_lt in Hi; lia|].
    destruct (H i im im' Him Hi) as (_ & _ & gt & c0 & _ & G). specialize (N im (nth_error_In _ _ Him)).
    unfold generated_bb_func in N. apply map_eq_nil in N.
    destruct (G [] N) as (fresh & (pss & LP & EP & ->) & G'). unfold generated_bb_func. rewrite G'.
    destruct pss as [|ps [|? ?]]; try discriminate. destruct (EP 0 _ _ eq_refl eq_refl) as [Lp _].
    unfold number. rewrite skipn_nil. cbn [combine map concat fst snd boxes_of]. unfold boxes_of.
    rewrite !app_nil_r, !map_length, combine_length, seq_length, map_length. lia.
  Qed.
End Flow.

Section Succeed.
  Context {Sh Px : Type}.
  Variable bounding_box : Sh -> Sh.
  Variable constrain : Px -> Sh -> Sh.
  Variable perturb_func : nat -> Sh -> Sh -> res Sh.
  Variable matches : string -> bool.
  Lemma ploop_total n p gt_s bb : (forall c, exists s, perturb_func c gt_s bb = Ok s) -> forall c k d,
    exists r, perturb_loop bounding_box constrain perturb_func n p gt_s bb c k d = Ok r.
  Proof.
    intros H. induction n as [|n IH]; intros c k d; cbn [perturb_loop]; [eauto|]. destruct (H c) as [s ->]. cbn [bind]. apply IH.
  Qed.
  Lemma bloop_total n glob p gt_s bbs : (forall bb c, exists s, perturb_func c gt_s bb = Ok s) -> forall c k d,
    exists r, box_loop bounding_box constrain perturb_func n glob p gt_s bbs c k d = Ok r.
  Proof.
    intros H. induction bbs as [|bb bbs IH]; intros c k d; cbn [box_loop]; [eauto|].
    destruct (ploop_total n p gt_s bb (H bb) c k d) as [[[c1 k1] d1] ->]. cbn [bind]. destruct glob; apply IH.
  Qed.
  Lemma iloop_total n glob gt_group images :
    (forall gt_s bb c, exists s, perturb_func c gt_s bb = Ok s) ->
    (forall im : pimage Sh Px, In im images -> dict_get gt_group (plms im) <> None) -> forall c,
    exists r, image_loop bounding_box constrain perturb_func matches n glob gt_group images c = Ok r.
  Proof.
    intros H. induction images as [|im images IH]; intros G c; cbn [image_loop]; [eauto|].
    unfold dict_at. destruct (dict_get gt_group (plms im)) as [gt|] eqn:E; [|exfalso; apply (G im); [left; auto|auto]]. cbn [bind].
    destruct (bloop_total n glob (ppx im) (bounding_box gt) (if glob then bb_glob bounding_box matches (plms im) else [bounding_box gt]) (H _) c 0 (plms im)) as [[[c1 k1] d1] ->].
    cbn [bind]. destruct (IH (fun im' Hi => G im' (or_intror Hi)) c1) as [r ->]. cbn. eauto.
  Qed.
End Succeed.
