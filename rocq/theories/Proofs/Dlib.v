From Coq Require Import String List ZArith QArith Qcanon Bool Lia Lqa.
From Verif.Model Require Import Py Dict Result Perturb Dlib.
From Verif.Spec Require Import Perturb Dlib.
From Verif.Proofs Require Import Dict.
From Verif.Proofs Require Result Perturb.
Import ListNotations.
Local Open Scope nat_scope.

Lemma of_int_this z : this (of_int z) = inject_Z z.
Proof. unfold of_int, Q2Qc. cbn [this]. unfold inject_Z. unfold Qred. cbn. destruct (Z.ggcd z 1) as [g [a b]] eqn:G. pose proof (Z.ggcd_gcd z 1) as H1. pose proof (Z.ggcd_correct_divisors z 1) as H2.
  rewrite G in H1, H2. cbn in H1. rewrite Z.gcd_1_r in H1. subst g. destruct H2 as [-> E]. rewrite Z.mul_1_l in E. subst b. rewrite Z.mul_1_l. reflexivity. Qed.
Lemma py_int_of_int z : py_int (of_int z) = z.
Proof. unfold py_int. rewrite of_int_this. cbn. apply Z.quot_1_r. Qed.
Lemma of_int_le a b : (of_int a <= of_int b)%Qc <-> (a <= b)%Z.
Proof. unfold Qcle. rewrite !of_int_this. rewrite <- Zle_Qle. reflexivity. Qed.
Lemma of_int_inj a b : of_int a = of_int b -> a = b.
Proof. intros H. rewrite <- (py_int_of_int a), H. apply py_int_of_int. Qed.

Lemma py_int_truncates q : truncates q (py_int q).
Proof.
  unfold truncates, Qcle, Qclt. change int with of_int. rewrite !of_int_this. unfold py_int. destruct q as [[n d] C]. cbn [this Qnum Qden].
  unfold Qle, Qlt. cbn [inject_Z Qnum Qden]. rewrite !Z.mul_1_r, !Z.mul_0_l. cbn [Qnum Qden Q2Qc this Qred Z.ggcd].
  pose proof (Pos2Z.is_pos d) as P. pose proof (Z.quot_rem' n (Z.pos d)) as E. split; intros H; cbn in H; rewrite ?Z.mul_1_r in H.
  - pose proof (Z.rem_bound_pos n (Z.pos d) H P). split; nia.
  - destruct (Z.eq_dec n 0) as [->|N]; [rewrite Z.quot_0_l by lia; split; lia|].
    specialize (Z.rem_bound_pos (- n) (Z.pos d) ltac:(lia) P). rewrite Z.rem_opp_l by lia. intros B. split; nia.
Qed.
Lemma truncates_unique q a b : truncates q a -> truncates q b -> a = b.
Proof.
  intros [A1 A2] [B1 B2]. unfold Qcle, Qclt in *. change int with of_int in *. rewrite !of_int_this in *.
  destruct (Qlt_le_dec (this q) 0) as [L|L].
  - destruct (A2 (Qlt_le_weak _ _ L)) as [A3 A4]. destruct (B2 (Qlt_le_weak _ _ L)) as [B3 B4].
    assert (X1 : (inject_Z (a - 1) < inject_Z b)%Q) by (eapply Qlt_le_trans; eassumption).
    assert (X2 : (inject_Z (b - 1) < inject_Z a)%Q) by (eapply Qlt_le_trans; eassumption).
    rewrite <- Zlt_Qlt in X1, X2. lia.
  - destruct (A1 L) as [A3 A4]. destruct (B1 L) as [B3 B4].
    assert (X1 : (inject_Z a < inject_Z (b + 1))%Q) by (eapply Qle_lt_trans; eassumption).
    assert (X2 : (inject_Z b < inject_Z (a + 1))%Q) by (eapply Qle_lt_trans; eassumption).
    rewrite <- Zlt_Qlt in X1, X2. lia.
Qed.

Lemma qcmin_spec a b : (qcmin a b <= a /\ qcmin a b <= b /\ (qcmin a b = a \/ qcmin a b = b))%Qc.
Proof. unfold qcmin. destruct (Qclt_le_dec b a) as [L|L]; (split; [|split]); auto using Qcle_refl, Qclt_le_weak. Qed.
Lemma qcmax_spec a b : (a <= qcmax a b /\ b <= qcmax a b /\ (qcmax a b = a \/ qcmax a b = b))%Qc.
Proof. unfold qcmax. destruct (Qclt_le_dec a b) as [L|L]; (split; [|split]); auto using Qcle_refl, Qclt_le_weak. Qed.
Lemma fold_pair (f g : Qc -> Qc -> Qc) (r : list (Qc * Qc)) : forall p,
  fold_left (fun m q => (f (fst m) (fst q), g (snd m) (snd q))) r p = (fold_left f (map fst r) (fst p), fold_left g (map snd r) (snd p)).
Proof. induction r as [|q r IH]; intros [a b]; cbn; [reflexivity|]. rewrite IH. reflexivity. Qed.
Lemma fold_min_spec r : forall x, (In (fold_left qcmin r x) (x :: r) /\ forall v, In v (x :: r) -> fold_left qcmin r x <= v)%Qc.
Proof.
  induction r as [|y r IH]; intros x; cbn [fold_left].
  - split; [now left|]. intros v [<-|[]]. apply Qcle_refl.
  - destruct (IH (qcmin x y)) as [A B]. destruct (qcmin_spec x y) as [C [D E]]. split.
    + destruct A as [A|A]; [|right; now right]. rewrite <- A. destruct E as [->| ->]; [now left|right; now left].
    + intros v [<-|[<-|V]]; [eapply Qcle_trans; [apply B; now left|exact C]|eapply Qcle_trans; [apply B; now left|exact D]|apply B; now right].
Qed.
Lemma fold_max_spec r : forall x, (In (fold_left qcmax r x) (x :: r) /\ forall v, In v (x :: r) -> v <= fold_left qcmax r x)%Qc.
Proof.
  induction r as [|y r IH]; intros x; cbn [fold_left].
  - split; [now left|]. intros v [<-|[]]. apply Qcle_refl.
  - destruct (IH (qcmax x y)) as [A B]. destruct (qcmax_spec x y) as [C [D E]]. split.
    + destruct A as [A|A]; [|right; now right]. rewrite <- A. destruct E as [->| ->]; [now left|right; now left].
    + intros v [<-|[<-|V]]; [eapply Qcle_trans; [exact C|apply B; now left]|eapply Qcle_trans; [exact D|apply B; now left]|apply B; now right].
Qed.
Lemma bounds_spec pts : pts <> [] -> exists a b, bounds pts = Ok (a, b) /\
  least fst pts (fst a) /\ least snd pts (snd a) /\ greatest fst pts (fst b) /\ greatest snd pts (snd b).
Proof.
  destruct pts as [|p r]; [congruence|]. intros _. unfold bounds. rewrite !fold_pair. eexists. eexists. split; [reflexivity|]. cbn [fst snd].
  assert (M : forall f : Qc * Qc -> Qc, forall v, In v (f p :: map f r) -> exists q, In q (p :: r) /\ f q = v).
  { intros f v V. change (f p :: map f r) with (map f (p :: r)) in V. apply in_map_iff in V. destruct V as [q [E I]]. eauto. }
  assert (M' : forall (f : Qc * Qc -> Qc) q, In q (p :: r) -> In (f q) (f p :: map f r)).
  { intros f q I. change (f p :: map f r) with (map f (p :: r)). apply in_map. exact I. }
  split; [|split; [|split]]; (split; [apply M; first [apply fold_min_spec|apply fold_max_spec]|]); intros q I;
    first [apply (fold_min_spec (map fst r) (fst p))|apply (fold_min_spec (map snd r) (snd p))
          |apply (fold_max_spec (map fst r) (fst p))|apply (fold_max_spec (map snd r) (snd p))]; apply M'; exact I.
Qed.
Lemma least_unique {A} (f : A -> Qc) l m m' : least f l m -> least f l m' -> m = m'.
Proof. intros [[p [P <-]] L] [[q [Q <-]] L']. apply Qcle_antisym; auto. Qed.
Lemma greatest_unique {A} (f : A -> Qc) l m m' : greatest f l m -> greatest f l m' -> m = m'.
Proof. intros [[p [P <-]] L] [[q [Q <-]] L']. apply Qcle_antisym; auto. Qed.

(** *** training flow *)
Section Ert.
  Context {Sh Px Tr Scene : Type}.
  Notation img := (pimage Sh Px).
  Variable scale_image : nat -> img -> res (img * Tr).
  Variable tapply : Tr -> Sh -> Sh.
  Variable train : nat -> list img -> list Sh -> list (list Sh) -> res (list (list Sh)).
  Variable place : Px -> Sh -> Scene.
  Notation loop := (ert_loop scale_image tapply train).
  Definition has (im : img) (w : list Scene) : Prop :=
    forall k x, nth_error w k = Some x -> exists s, dict_get (ert_key k) (plms im) = Some s /\ place (ppx im) s = x.

  Lemma attach_get t : forall ss o d k, dict_get (ert_key k) (ert_attach_from tapply o t ss d) =
    if (k <? o) then dict_get (ert_key k) d else
    match nth_error ss (k - o) with Some s => Some (tapply t s) | None => dict_get (ert_key k) d end.
  Proof.
    induction ss as [|s ss IH]; intros o d k; cbn [ert_attach_from].
    - destruct (k <? o); auto. destruct (k - o); auto.
    - rewrite IH. destruct (Nat.ltb_spec k (S o)), (Nat.ltb_spec k o); try lia.
      + apply get_set_other. intros E. apply Proofs.Perturb.key_inj in E. lia.
      + assert (k = o) by lia. subst. rewrite Nat.sub_diag. apply get_set_same.
      + replace (k - o) with (S (k - S o)) by lia. cbn [nth_error]. destruct (nth_error ss _); auto.
        apply get_set_other. intros E. apply Proofs.Perturb.key_inj in E. lia.
  Qed.
  Lemma attach_nth : forall (images : list img) ts shapes i im t ss, nth_error images i = Some im -> nth_error ts i = Some t ->
    nth_error shapes i = Some ss ->
    nth_error (ert_attach tapply images ts shapes) i = Some (mkPImage (ppx im) (ert_attach_from tapply 0 t ss (plms im))).
  Proof.
    induction images as [|x images IH]; intros [|t0 ts] [|ss0 shapes] [|i] im t ss; cbn; try discriminate; auto. congruence.
  Qed.
  Lemma attach_length (images : list img) : forall ts shapes, length (ert_attach tapply images ts shapes) = length images.
  Proof. induction images as [|im images IH]; intros [|t ts] [|ss shapes]; cbn; auto. Qed.
  Lemma read_spec n im w cs : has im w -> n <= length w -> ert_read n im = Ok cs -> map (place (ppx im)) cs = firstn n w.
  Proof.
    unfold ert_read. intros H L R. apply Proofs.Result.mapM_inv in R. destruct R as [RL RN]. rewrite seq_length in RL.
    apply Proofs.Perturb.nth_error_ext. intros k. rewrite nth_error_map. destruct (Nat.lt_ge_cases k n) as [Hk|Hk].
    - assert (S1 : nth_error (seq 0 n) k = Some k) by (rewrite (nth_error_nth' _ 0) by (rewrite seq_length; lia); rewrite seq_nth; auto).
      destruct (RN k k S1) as (s & D & Ns). rewrite Ns. cbn.
      destruct (nth_error w k) as [x|] eqn:W; [|apply nth_error_None in W; lia].
      destruct (H k x W) as (s' & G & P). unfold dict_at in D. rewrite G in D. injection D as <-.
      rewrite P. rewrite <- W. rewrite <- (firstn_skipn n w) at 1. rewrite nth_error_app1; auto. rewrite firstn_length. lia.
    - rewrite (proj2 (nth_error_None cs k)) by lia. cbn. symmetry. apply nth_error_None. rewrite firstn_length. lia.
  Qed.
  Lemma carried_has im im' w : carried place im im' -> has im w -> has im' w.
  Proof.
    intros C H k x E. destruct (H k x E) as (s & G & P). destruct (Proofs.Perturb.carried_get place im im' (ert_key k) s C G) as (s' & G' & P').
    exists s'. split; congruence.
  Qed.
  Lemma loop_inv n group j todo images tr final : loop n group j (S todo) images = Ok (tr, final) ->
    exists scaled gts cur est rest, mapM (scale_image j) images = Ok scaled /\
      (if j =? 0 then Ok (map generated_bb_func (map fst scaled)) else mapM (ert_read n) (map fst scaled)) = Ok cur /\
      train j (map fst scaled) gts cur = Ok est /\ tr = (map fst scaled, cur, est) :: rest /\
      loop n group (S j) todo (if todo =? 0 then images else ert_attach tapply images (map snd scaled) est) = Ok (rest, final).
  Proof.
    cbn [ert_loop]. intros H. destruct (mapM (scale_image j) images) as [scaled|] eqn:E1; [|discriminate]. cbn [bind] in H.
    destruct (if j =? 0 then _ else _) as [cur|] eqn:E2; [|discriminate]. cbn [bind] in H.
    destruct (mapM (fun im => dict_at group (plms im)) (map fst scaled)) as [gts|] eqn:E3; [|discriminate]. cbn [bind] in H.
    destruct (train j (map fst scaled) gts cur) as [est|] eqn:E4; [|discriminate]. cbn [bind] in H.
    destruct (loop n group (S j) todo _) as [[rest fin]|] eqn:E5; [|discriminate]. cbn [bind] in H. injection H as <- <-.
    exists scaled, gts, cur, est, rest. auto.
  Qed.
  Lemma loop_length n group : forall todo j images tr final, loop n group j todo images = Ok (tr, final) -> length tr = todo.
  Proof.
    induction todo as [|todo IH]; intros j images tr final H; [injection H as <- <-; reflexivity|].
    apply loop_inv in H. destruct H as (scaled & gts & cur & est & rest & _ & _ & _ & -> & H). cbn. f_equal. eapply IH; eauto.
  Qed.
  Hypothesis F : faithful_training place (fun _ im => Ok im) scale_image tapply train.
  Definition ready (m : nat) (imgs : list img) (est : list (list Sh)) (images : list img) : Prop :=
    length imgs = length images /\ length est = length images /\
    forall i im es b, nth_error imgs i = Some im -> nth_error est i = Some es -> nth_error images i = Some b ->
      m <= length es /\ has b (map (place (ppx im)) es).
  Lemma flow_later n group : forall todo j images tr final imgs cur est, j <> 0 ->
    ready n imgs est images -> loop n group j todo images = Ok (tr, final) ->
    chain (continues_first place n) ((imgs, cur, est) :: tr) /\
    Forall (fun t : scale_trace => Forall (fun cs => length cs = n) (snd (fst t)) /\ map (@length Sh) (snd t) = map (@length Sh) (snd (fst t))) tr.
  Proof using F.
    destruct F as [F1 F2 F3].
    induction todo as [|todo IH]; intros j images tr final imgs cur est J [R1 [R2 R3]] H.
    - injection H as <- <-. split; [exact I|constructor].
    - apply loop_inv in H. destruct H as (scaled & gts & cur' & est' & rest & E1 & E2 & E3 & -> & H).
      destruct (Nat.eqb_spec j 0) as [->|_]; [congruence|].
      apply Proofs.Result.mapM_inv in E1. destruct E1 as [L1 N1]. apply Proofs.Result.mapM_inv in E2. destruct E2 as [L2 N2]. rewrite map_length in L2.
      pose proof (F3 _ _ _ _ _ E3) as L3. assert (L4 : length est' = length cur') by (rewrite <- (map_length (@length Sh) est'), L3, map_length; reflexivity).
      assert (K : forall i im es im' cs, nth_error imgs i = Some im -> nth_error est i = Some es -> nth_error (map fst scaled) i = Some im' ->
                    nth_error cur' i = Some cs -> map (place (ppx im')) cs = firstn n (map (place (ppx im)) es) /\ length cs = n).
      { intros i im es im' cs A B C D. destruct (Proofs.Perturb.nth_ex images i) as [b Hb]; [apply Proofs.Perturb.nth_lt in A; lia|].
        destruct (N1 i b Hb) as ([im1 t] & Q & N). rewrite nth_error_map, N in C. injection C as <-. cbn [fst].
        destruct (F1 _ _ _ _ Q) as [CA _]. destruct (N2 i im1) as (cs' & RD & N'); [rewrite nth_error_map, N; reflexivity|].
        assert (cs' = cs) by congruence. subst cs'. destruct (R3 i im es b A B Hb) as [LE HB].
        pose proof (read_spec n im1 _ cs (carried_has _ _ _ CA HB) ltac:(rewrite map_length; exact LE) RD) as X. split; [exact X|].
        apply (f_equal (@length Scene)) in X. rewrite map_length, firstn_length, map_length in X. lia. }
      assert (LC : Forall (fun cs => length cs = n) cur').
      { apply Forall_forall. intros cs Hc. apply In_nth_error in Hc. destruct Hc as [i Hc]. pose proof (Proofs.Perturb.nth_lt _ _ _ Hc) as Hi.
        destruct (Proofs.Perturb.nth_ex imgs i) as [im Him]; [lia|]. destruct (Proofs.Perturb.nth_ex est i) as [es Hes]; [lia|].
        destruct (Proofs.Perturb.nth_ex (map fst scaled) i) as [im' Him']; [rewrite map_length; lia|]. eapply K; eauto. }
      assert (RD : todo = 0 \/ ready n (map fst scaled) est' (ert_attach tapply images (map snd scaled) est')).
      { right. unfold ready. rewrite attach_length, map_length. split; [lia|]. split; [lia|].
        intros i im es b A B C. destruct (Proofs.Perturb.nth_ex images i) as [b0 Hb0]; [apply Proofs.Perturb.nth_lt in C; rewrite attach_length in C; lia|].
        destruct (N1 i b0 Hb0) as ([im1 t] & Q & N). rewrite nth_error_map, N in A. injection A as <-.
        rewrite (attach_nth images (map snd scaled) est' i b0 t es) in C; auto; [|rewrite nth_error_map, N; reflexivity]. injection C as <-. split.
        - destruct (Proofs.Perturb.nth_ex cur' i) as [cs Hcs]; [apply Proofs.Perturb.nth_lt in B; lia|].
          rewrite (Proofs.Perturb.map_length_nth _ _ i _ _ L3 B Hcs). rewrite Forall_forall in LC. rewrite (LC cs (nth_error_In _ _ Hcs)). lia.
        - intros k x Hx. rewrite nth_error_map in Hx. destruct (nth_error es k) as [s|] eqn:Hs; [|discriminate]. injection Hx as <-.
          exists (tapply t s). cbn [plms ppx]. split; [rewrite attach_get; cbn; rewrite Nat.sub_0_r, Hs; reflexivity|]. symmetry. apply (F1 _ _ _ _ Q). }
      assert (CF : continues_first place n (imgs, cur, est) (map fst scaled, cur', est')).
      { cbn. rewrite !map_length. split; [lia|]. split; [lia|]. split; [lia|].
        intros i im im' es cs A B C D. eapply K; eauto. }
      destruct todo as [|todo].
      + injection H as <- <-. split; [split; [exact CF|exact I]|]. constructor; [|constructor]. split; [exact LC|exact L3].
      + cbn [Nat.eqb] in H. destruct RD as [RD|RD]; [discriminate|]. destruct (IH (S j) _ rest final _ cur' est' ltac:(lia) RD H) as [C1 C2].
        split; [split; [exact CF|exact C1]|]. constructor; [|exact C2]. split; [exact LC|exact L3].
  Qed.
  Lemma flow n group todo images tr final :
    (forall im, In im images -> n <= length (generated_bb_func im)) ->
    loop n group 0 todo images = Ok (tr, final) ->
    chain (continues_first place n) tr /\
    Forall (fun t : scale_trace => map (@length Sh) (snd t) = map (@length Sh) (snd (fst t))) tr /\
    Forall (fun t : scale_trace => Forall (fun cs => length cs = n) (snd (fst t))) (tl tr).
  Proof using F.
    intros G H. destruct todo as [|todo]; [injection H as <- <-; split; [exact I|split; constructor]|].
    apply loop_inv in H. destruct H as (scaled & gts & cur' & est' & rest & E1 & E2 & E3 & -> & H). cbn [Nat.eqb] in E2. injection E2 as E2.
    pose proof F as [F1 F2 F3]. pose proof (F3 _ _ _ _ _ E3) as L3. assert (L4 : length est' = length cur') by (rewrite <- (map_length (@length Sh) est'), L3, map_length; reflexivity).
    apply Proofs.Result.mapM_inv in E1. destruct E1 as [L1 N1].
    destruct todo as [|todo].
    - injection H as <- <-. split; [exact I|]. split; [constructor; [exact L3|constructor]|constructor].
    - cbn [Nat.eqb] in H. assert (L5 : length cur' = length scaled) by (rewrite <- E2, !map_length; reflexivity).
      assert (RD : ready n (map fst scaled) est' (ert_attach tapply images (map snd scaled) est')).
      { unfold ready. rewrite attach_length, map_length. split; [lia|]. split; [lia|].
        intros i im es b A B C. destruct (Proofs.Perturb.nth_ex images i) as [b0 Hb0]; [apply Proofs.Perturb.nth_lt in C; rewrite attach_length in C; lia|].
        destruct (N1 i b0 Hb0) as ([im1 t] & Q & N). rewrite nth_error_map, N in A. injection A as <-.
        rewrite (attach_nth images (map snd scaled) est' i b0 t es) in C; auto; [|rewrite nth_error_map, N; reflexivity]. injection C as <-. split.
        - assert (Hcs : nth_error cur' i = Some (generated_bb_func im1)) by (rewrite <- E2, !nth_error_map, N; reflexivity).
          rewrite (Proofs.Perturb.map_length_nth _ _ i _ _ L3 B Hcs). destruct (F1 _ _ _ _ Q) as [CA _].
          rewrite <- (Proofs.Perturb.carried_generated place _ _ CA). apply G. eapply nth_error_In; eauto.
        - intros k x Hx. rewrite nth_error_map in Hx. destruct (nth_error es k) as [s|] eqn:Hs; [|discriminate]. injection Hx as <-.
          exists (tapply t s). cbn [plms ppx]. split; [rewrite attach_get; cbn; rewrite Nat.sub_0_r, Hs; reflexivity|]. symmetry. apply (F1 _ _ _ _ Q). }
      destruct (flow_later n group (S todo) 1 _ rest final _ cur' est' ltac:(lia) RD H) as [C1 C2]. split; [exact C1|].
      split; [constructor; [exact L3|]|]; (eapply Forall_impl; [|exact C2]); cbn; tauto.
  Qed.
End Ert.
