From Coq Require Import String List Arith Lia.
From Verif.Model Require Import Py Dict Result Io.
From Verif.Spec Require Import Io.
From Verif.Proofs Require Dict.
Import ListNotations.

Section W.
  Context {V Img Sh P A C : Type}.
  Implicit Type h : @heap V.
  Lemma store_length h r d : List.length (store h r d) = List.length h.
  Proof. revert r. induction h; intros [|r]; cbn; auto. Qed.
  Lemma deref_store_same h r d : r < List.length h -> deref (store h r d) r = d.
  Proof. revert r. unfold deref. induction h; intros [|r]; cbn; intros; try lia; auto. apply IHh. lia. Qed.
  Lemma deref_store_other h r r' d : r <> r' -> deref (store h r d) r' = deref h r'.
  Proof. revert r r'. unfold deref. induction h; intros [|r] [|r']; cbn; intros; try lia; auto. Qed.
  Lemma update_other k (kw d : dict V) : ~ In k (map fst kw) -> dict_get k (dict_update kw d) = dict_get k d.
  Proof.
    revert d. induction kw as [|[k' v'] kw IH]; intros d H; cbn; [reflexivity|]. unfold dict_update in IH.
    rewrite IH by (cbn in H; tauto). apply Dict.get_set_other. cbn in H. intros E. apply H. auto.
  Qed.
  Lemma update_same k v (kw d : dict V) : NoDup (map fst kw) -> In (k, v) kw -> dict_get k (dict_update kw d) = Some v.
  Proof.
    revert d. induction kw as [|[k' v'] kw IH]; intros d N H; [destruct H|]. cbn in N. inversion N; subst.
    destruct H as [E|H].
    - assert (k' = k) by congruence. assert (v' = v) by congruence. subst.
      cbn. change (dict_get k (dict_update kw (dict_set k v d)) = Some v). rewrite update_other by auto. apply Dict.get_set_same.
    - cbn. change (dict_get k (dict_update kw (dict_set k' v' d)) = Some v). auto.
  Qed.
  Lemma update_prefers (kw d : dict V) : NoDup (map fst kw) -> prefers kw d (dict_update kw d).
  Proof. intros N k. split; [intros v; apply update_same; auto|apply update_other]. Qed.

  Lemma map_result_spec (t : transform Sh) (image : Img) (r : wresult Img Sh P A C) :
    match r_initial (w_res r) with
    | Some _ => exists out, map_result t image r = Ok out /\ mapped_back (t_apply t) image r out
    | None => map_result t image r = Err AttributeError
    end.
  Proof.
    unfold map_result. destruct (r_initial (w_res r)) as [i|] eqn:E; [|reflexivity]. cbn [bind].
    eexists. split; [reflexivity|]. constructor; cbn; auto.
    - intros i' H. congruence.
    - intros ->. reflexivity.
  Qed.

  Variable wrapped : nat -> method -> Img -> Sh -> dict V -> res (wresult Img Sh P A C).
  Variable preprocess : option (nat -> Img -> Sh -> res (Img * transform Sh)).

  Lemma wrapped_fit_spec w n h m i s k h' r : bb_kwargs w < List.length h -> shape_kwargs w < List.length h -> NoDup (map fst k) ->
    wrapped_fit wrapped preprocess w n h m i s k = (h', r) ->
    List.length h <= List.length h' /\ (forall a, a < List.length h -> deref h' a = deref h a) /\
    answer wrapped preprocess (fun m => deref h (defaults_of w m)) n (m, i, s, k) r.
  Proof.
    intros Hb Hs N. unfold wrapped_fit, alloc. intros [= <- <-].
    set (d := deref h (defaults_of w m)). assert (L : List.length h < List.length (h ++ [d])) by (rewrite app_length; cbn; lia).
    assert (D0 : deref (h ++ [d]) (List.length h) = d) by (unfold deref; rewrite app_nth2, Nat.sub_diag by lia; reflexivity).
    rewrite D0. rewrite deref_store_same by exact L.
    split; [rewrite store_length; lia|]. split.
    - intros a Ha. rewrite deref_store_other by lia. unfold deref. apply app_nth1. lia.
    - exists (dict_update k d). split; [apply update_prefers; auto|]. destruct preprocess as [pre|]; [|reflexivity].
      destruct (pre n i s) as [[small t]|e]; cbn [bind fst snd]; [|reflexivity].
      destruct (wrapped n m small (t_pinv t s) (dict_update k d)) as [inner|e]; cbn [bind]; [|reflexivity].
      apply map_result_spec.
  Qed.
  Lemma fits_spec w calls : forall n h h' rs, bb_kwargs w < List.length h -> shape_kwargs w < List.length h ->
    Forall (fun c : call V Img Sh => NoDup (map fst (snd c))) calls ->
    fits wrapped preprocess w n h calls = (h', rs) ->
    (forall a, a < List.length h -> deref h' a = deref h a) /\ List.length rs = List.length calls /\
    forall k c r, nth_error calls k = Some c -> nth_error rs k = Some r ->
      answer wrapped preprocess (fun m => deref h (defaults_of w m)) (n + k) c r.
  Proof.
    induction calls as [|[[[m i] s] u] calls IH]; intros n h h' rs Hb Hs F E.
    - cbn in E. injection E as <- <-. split; [auto|]. split; [reflexivity|]. intros [|k]; discriminate.
    - cbn [fits] in E. destruct (wrapped_fit wrapped preprocess w n h m i s u) as [h1 r1] eqn:E1.
      destruct (fits wrapped preprocess w (S n) h1 calls) as [h2 rs2] eqn:E2. injection E as <- <-.
      inversion F as [|x y N F']; subst. cbn in N.
      destruct (wrapped_fit_spec w n h m i s u h1 r1 Hb Hs N E1) as [L [D An]].
      destruct (IH (S n) h1 h2 rs2 ltac:(lia) ltac:(lia) F' E2) as [D2 [L2 An2]].
      split; [intros a Ha; rewrite D2, D by lia; reflexivity|]. split; [cbn; lia|].
      intros [|k] c r Hc Hr; cbn in Hc, Hr.
      + replace (n + 0) with n by lia. assert (c = (m, i, s, u)) as -> by congruence. assert (r = r1) as -> by congruence. exact An.
      + replace (n + S k) with (S n + k) by lia. specialize (An2 k c r Hc Hr).
        destruct c as [[[m' i'] s'] u']. unfold answer in *. destruct An2 as [fin [Pf R]].
        exists fin. split; [|exact R]. rewrite <- D; [exact Pf|]. destruct m'; assumption.
  Qed.
End W.

Section L.
  Context {B Fit : Type}.
  Implicit Type env : environment B Fit.
  Lemma copy_loop_done events : forall file c : list B, copy_loop file events = (c, Returned tt) ->
    exists chunks, events = map Chunk chunks /\ c = file ++ concat chunks.
  Proof.
    induction events as [|ev events IH]; intros file c; cbn.
    - intros [= <-]. exists []. cbn. rewrite app_nil_r. auto.
    - destruct ev; try discriminate. intros H. apply IH in H. destruct H as [ch [-> ->]].
      exists (b :: ch). cbn. rewrite app_assoc. auto.
  Qed.
  Lemma copy_loop_chunks (chunks : list (list B)) : forall file, copy_loop file (map Chunk chunks) = (file ++ concat chunks, Returned tt).
  Proof. induction chunks as [|b l IH]; intros file; cbn; [rewrite app_nil_r; reflexivity|]. rewrite IH, app_assoc. reflexivity. Qed.
  Lemma load_existing_returned env disk disk' f : load_existing env disk = (disk', Returned f) ->
    disk' = disk /\ exists c, disk = Some c /\ env_unpickle env c = Ok f.
  Proof.
    unfold load_existing. destruct (env_load env) as [o|]; [destruct o as [[]| |]; discriminate|].
    destruct disk as [c|].
    - destruct (env_unpickle env c) as [g|e] eqn:U.
      + intros [= <- <-]. eauto.
      + destruct (env_unlink env) as [o|]; [destruct o as [[]| |]; discriminate|discriminate].
    - destruct (env_unlink env) as [o|]; [destruct o as [[]| |]; discriminate|discriminate].
  Qed.
  Lemma load_fitter_returned env disk disk' f : load_fitter env disk = (disk', Returned f) ->
    exists c, disk' = Some c /\ env_unpickle env c = Ok f /\ (disk = Some c \/ (disk = None /\ delivered env c)).
  Proof.
    unfold load_fitter. destruct disk as [c0|].
    - intros H. apply load_existing_returned in H. destruct H as [-> [c [E U]]]. exists c. auto.
    - unfold download_file. destruct (env_urlopen env); [discriminate|]. destruct (env_open env); [discriminate|].
      destruct (env_content_length env); [discriminate|]. destruct (copy_loop [] (env_events env)) as [file [[]|e|]] eqn:K; try discriminate.
      intros H. apply load_existing_returned in H. destruct H as [-> [c [E U]]]. exists c. split; [auto|]. split; [auto|]. right. split; [auto|].
      apply copy_loop_done in K. destruct K as [ch [K ->]]. exists ch. split; [auto|]. cbn [app] in E. congruence.
  Qed.
  Lemma healthy_load env chunks u f disk : healthy env chunks u -> u (concat chunks) = Ok f ->
    load_fitter env disk =
      match disk with
      | None => (Some (concat chunks), Returned f)
      | Some c => match u c with Ok g => (Some c, Returned g) | Err e => (None, Raised e) end
      end.
  Proof.
    intros [H1 [H2 [H3 [H4 [H5 [H6 H7]]]]]] U. unfold load_fitter. destruct disk as [c|].
    - unfold load_existing. rewrite H5, H7, H6. destruct (u c); reflexivity.
    - unfold download_file. rewrite H1, H2, H3, H4, copy_loop_chunks. cbn [app]. unfold load_existing. rewrite H5, H7, U. reflexivity.
  Qed.
  Lemma healthy_loads_file chunks u f envs : (u (concat chunks) = Ok f) -> Forall (fun e => healthy (Fit:=Fit) e chunks u) envs -> forall c g, u c = Ok g ->
    @loads B Fit envs (Some c) = (Some c, map (fun _ => Returned g) envs).
  Proof.
    intros U F c g G. induction F as [|e envs H F IH]; [reflexivity|]. cbn [loads map]. rewrite (healthy_load e chunks u f _ H U), G, IH. reflexivity.
  Qed.
  Lemma loads_app (e1 e2 : list (environment B Fit)) : forall d, loads (e1 ++ e2) d =
    let (d1, o1) := loads e1 d in let (d2, o2) := loads e2 d1 in (d2, o1 ++ o2).
  Proof.
    induction e1 as [|e e1 IH]; intros d; cbn [app loads]; [destruct (loads e2 d); reflexivity|].
    destruct (load_fitter e d) as [d1 o1]. rewrite IH. destruct (loads e1 d1) as [d2 o2]. destruct (loads e2 d2). reflexivity.
  Qed.
End L.

Section Conc.
  Context {B Fit : Type} (zero : B) (remote : list B) (unpickle : list B -> res Fit).
  Lemma nth_error_set_nth {T} (l : list T) : forall i j x y, nth_error (set_nth i x l) j = Some y ->
    (i = j /\ y = x) \/ nth_error l j = Some y.
  Proof. induction l as [|a l IH]; intros [|i] [|j] x y; cbn; intros H; auto; try (injection H as <-; auto). destruct (IH i j x y H) as [[-> ->]|]; auto. Qed.
  Lemma returned_inv w w' : wsteps zero remote unpickle w w' ->
    (forall p f, nth_error (procs w) p = Some (Finished (Returned f)) -> exists c, unpickle c = Ok f) ->
    forall p f, nth_error (procs w') p = Some (Finished (Returned f)) -> exists c, unpickle c = Ok f.
  Proof.
    induction 1 as [|w w' w'' St _ IH]; intros I; [exact I|]. apply IH. clear IH. intros p f Hp.
    inversion St as [w0 i q e ns q' Hq Hs]; subst. cbn [procs] in Hp. apply nth_error_set_nth in Hp. destruct Hp as [[<- E]|Hp]; [|eauto].
    subst q'. inversion Hs; subst; eauto.
  Qed.
End Conc.
