(** Lemmas about batched and incremental training. *)
From Coq Require Import List ZArith Lia Bool Arith.
From Verif.Model Require Import Py Base Train.
From Verif.Spec Require Import Base Train.
From Verif.Proofs Require Base Result.
Import ListNotations.
Local Open Scope nat_scope.

Lemma andthen_ok {St} (o : outcome St) f st' : andthen o f = (st', None) ->
  exists st, o = (st, None) /\ f st = (st', None).
Proof. unfold andthen. destruct o as [st [e|]]; cbn; [discriminate|]. eauto. Qed.

Lemma set_nth_length {A} (l : list A) j x : j < length l -> length (set_nth j x l) = length l.
Proof. intros H. unfold set_nth. rewrite app_length. cbn [length]. rewrite firstn_length, skipn_length. lia. Qed.

Lemma nth_error_set_nth {A} (l : list A) j x i : j < length l ->
  nth_error (set_nth j x l) i = if i =? j then Some x else nth_error l i.
Proof.
  intros H. unfold set_nth. destruct (Nat.eqb_spec i j) as [->|Hne].
  - rewrite nth_error_app2; rewrite firstn_length; [|lia]. replace (j - min j (length l)) with 0 by lia. reflexivity.
  - destruct (lt_dec i j).
    + rewrite nth_error_app1 by (rewrite firstn_length; lia).
      rewrite <- (firstn_skipn j l) at 2. rewrite nth_error_app1; [reflexivity|rewrite firstn_length; lia].
    + rewrite nth_error_app2 by (rewrite firstn_length; lia). rewrite firstn_length.
      replace (i - min j (length l)) with (S (i - S j)) by lia. cbn [nth_error].
      rewrite <- (firstn_skipn (S j) l) at 2. rewrite nth_error_app2 by (rewrite firstn_length; lia).
      rewrite firstn_length. f_equal. lia.
Qed.

Section T.
  Context {Img D Ref : Type}.
  Variable n_scales : nat.
  Variable n_kinds : nat.
  Variable data : nat -> nat -> Ref -> list Img -> res (list D).
  Variable reference_of : list Img -> res Ref.
  Notation tstate := (tstate D Ref).
  Set Default Proof Using "Type".

  (** *** The reference shape *)
  Lemma train_kind_ref inc ref b j k (st : tstate) : t_ref (fst (train_kind data inc ref b j k st)) = t_ref st.
  Proof.
    unfold train_kind. destruct (data k j ref b); [|reflexivity]. destruct inc; [|reflexivity].
    destruct (nth_error _ _); reflexivity.
  Qed.
  Lemma train_kinds_ref inc ref b j ks : forall st : tstate, t_ref (fst (train_kinds data inc ref b j ks st)) = t_ref st.
  Proof.
    induction ks as [|k r IH]; intros st; [reflexivity|]. cbn [train_kinds]. unfold andthen.
    destruct (train_kind data inc ref b j k st) as [s [e|]] eqn:E; cbn [snd fst]; rewrite ?IH;
      rewrite <- (train_kind_ref inc ref b j k st), E; reflexivity.
  Qed.
  Lemma train_scales_ref inc ref b js : forall st : tstate, t_ref (fst (train_scales n_kinds data inc ref b js st)) = t_ref st.
  Proof.
    induction js as [|j r IH]; intros st; [reflexivity|]. cbn [train_scales]. unfold andthen.
    destruct (train_kinds data inc ref b j (seq 0 n_kinds) st) as [s [e|]] eqn:E; cbn [snd fst]; rewrite ?IH;
      rewrite <- (train_kinds_ref inc ref b j (seq 0 n_kinds) st), E; reflexivity.
  Qed.
  Lemma train_batch_ref inc b (st : tstate) : t_ref (fst (train_batch n_scales n_kinds data inc b st)) = t_ref st.
  Proof. unfold train_batch. destruct (t_ref st) eqn:E; [rewrite train_scales_ref|]; exact E. Qed.
  Lemma train_batches_ref_later : forall bs inc k (st : tstate), 0 < k ->
    t_ref (fst (train_batches n_scales n_kinds data reference_of inc k bs st)) = t_ref st.
  Proof.
    induction bs as [|b r IH]; intros inc k st Hk; [reflexivity|]. cbn [train_batches].
    destruct (Nat.eqb_spec k 0) as [->|_]; [lia|]. destruct (Nat.ltb_spec 0 k); [|lia].
    unfold andthen at 1. cbn [snd fst]. unfold andthen.
    destruct (train_batch n_scales n_kinds data true b st) as [s [e|]] eqn:E; cbn [snd fst]; rewrite ?IH by lia;
      rewrite <- (train_batch_ref true b st), E; reflexivity.
  Qed.
  Lemma train_batches_ref_set : forall bs inc k (st : tstate) ref, t_ref st = Some ref ->
    t_ref (fst (train_batches n_scales n_kinds data reference_of inc k bs st)) = Some ref.
  Proof.
    intros [|b r] inc k st ref H; [exact H|]. cbn [train_batches]. rewrite H.
    assert (E0 : (if k =? 0 then (st, None) else (st, None)) = (st, @None exn)) by (destruct (k =? 0); reflexivity).
    rewrite E0. unfold andthen at 1. cbn [snd fst]. unfold andthen.
    destruct (train_batch n_scales n_kinds data _ b st) as [s [e|]] eqn:E; cbn [snd fst];
      rewrite ?train_batches_ref_later by lia; rewrite <- H, <- (train_batch_ref (if 0 <? k then true else inc) b st), E; reflexivity.
  Qed.
  Lemma train_batches_ref_first : forall b r inc (st : tstate) ref, t_ref st = None -> reference_of b = Ok ref ->
    t_ref (fst (train_batches n_scales n_kinds data reference_of inc 0 (b :: r) st)) = Some ref.
  Proof.
    intros b r inc st ref H Hr. cbn [train_batches]. rewrite H, Hr. cbn [Nat.eqb]. unfold andthen at 1. cbn [snd fst]. unfold andthen.
    destruct (train_batch n_scales n_kinds data _ b _) as [s [e|]] eqn:E; cbn [snd fst];
      rewrite ?train_batches_ref_later by lia.
    all: change s with (fst (s, Some UserExn 0)) || idtac.
    all: match goal with |- t_ref ?x = _ => replace x with (fst (train_batch n_scales n_kinds data (if 0 <? 0 then true else inc) b (mkT (Some ref) (t_models st)))) by (rewrite E; reflexivity) end.
    all: rewrite train_batch_ref; reflexivity.
  Qed.

  (** *** The models *)
  Lemma train_kind_ok inc ref b j k (st st' : tstate) : train_kind data inc ref b j k st = (st', None) ->
    exists d, data k j ref b = Ok d /\
      (forall k', k' <> k -> t_models st' k' = t_models st k') /\
      if inc then exists m, nth_error (t_models st k) j = Some m /\ t_models st' k = set_nth j (m ++ [d]) (t_models st k)
      else t_models st' k = t_models st k ++ [[d]].
  Proof.
    unfold train_kind. destruct (data k j ref b) as [d|e] eqn:Ed; [|discriminate]. intros H. exists d. split; [reflexivity|].
    destruct inc.
    - destruct (nth_error (t_models st k) j) as [m|] eqn:Em; [|discriminate].
      assert (E : st' = upd_models st k (set_nth j (m ++ [d]) (t_models st k))) by congruence. subst st'. cbn. split.
      + intros k' Hk. destruct (Nat.eqb_spec k' k); congruence.
      + exists m. rewrite Nat.eqb_refl. auto.
    - assert (E : st' = upd_models st k (t_models st k ++ [[d]])) by congruence. subst st'. cbn. split.
      + intros k' Hk. destruct (Nat.eqb_spec k' k); congruence.
      + rewrite Nat.eqb_refl. auto.
  Qed.

  Lemma train_kinds_ok inc ref b j : forall ks (st st' : tstate), NoDup ks -> train_kinds data inc ref b j ks st = (st', None) ->
    forall k, (~ In k ks -> t_models st' k = t_models st k) /\
      (In k ks -> exists d, data k j ref b = Ok d /\
        if inc then exists m, nth_error (t_models st k) j = Some m /\ t_models st' k = set_nth j (m ++ [d]) (t_models st k)
        else t_models st' k = t_models st k ++ [[d]]).
  Proof.
    induction ks as [|k0 r IH]; intros st st' Hnd H k.
    - assert (st' = st) by (cbn in H; congruence). subst. split; [auto|intros []].
    - cbn [train_kinds] in H. apply andthen_ok in H. destruct H as (s & H1 & H2).
      apply train_kind_ok in H1. destruct H1 as (d & Hd & Hoth & Hk0).
      inversion Hnd as [|? ? Hni Hnd']; subst. destruct (IH s st' Hnd' H2 k) as [A B]. split.
      + intros Hn. rewrite A by (intros X; apply Hn; right; exact X). apply Hoth. intros ->. apply Hn. left. reflexivity.
      + intros [->|Hin].
        * exists d. split; [exact Hd|]. rewrite A by assumption. exact Hk0.
        * assert (Hne : k <> k0) by congruence. rewrite <- (Hoth k Hne). apply B. exact Hin.
  Qed.

  (** Building a new batch of models. *)
  Lemma train_scales_build ref b : forall n j0 (st st' : tstate),
    train_scales n_kinds data false ref b (seq j0 n) st = (st', None) ->
    (forall k, k < n_kinds -> length (t_models st k) = j0) ->
    forall k, k < n_kinds -> exists ds, length ds = n /\ t_models st' k = t_models st k ++ map (fun d => [d]) ds /\
      forall i d, nth_error ds i = Some d -> data k (j0 + i) ref b = Ok d.
  Proof.
    induction n as [|n IH]; intros j0 st st' H Hl k Hk.
    - assert (st' = st) by (cbn in H; congruence). subst. exists []. repeat split; cbn; [now rewrite app_nil_r|]. intros [|i]; discriminate.
    - cbn [seq train_scales] in H. apply andthen_ok in H. destruct H as (s & H1 & H2).
      pose proof (train_kinds_ok _ _ _ _ _ _ _ (seq_NoDup n_kinds 0) H1) as HK.
      assert (Hin : forall q, q < n_kinds -> In q (seq 0 n_kinds)) by (intros; apply in_seq; lia).
      destruct (IH _ _ _ H2) with (k := k) as (ds & L & E & Hds); [|exact Hk|].
      { intros q Hq. destruct (HK q) as [_ B]. destruct (B (Hin q Hq)) as (d & _ & ->). rewrite app_length, Hl by exact Hq. cbn. lia. }
      destruct (HK k) as [_ B]. destruct (B (Hin k Hk)) as (d & Hd & Es).
      exists (d :: ds). split; [cbn; lia|]. split; [rewrite E, Es, <- app_assoc; reflexivity|].
      intros [|i] x Hx; cbn [nth_error] in Hx.
      + assert (x = d) by congruence. subst. rewrite Nat.add_0_r. exact Hd.
      + replace (j0 + S i) with (S j0 + i) by lia. auto.
  Qed.

  (** Incrementing existing models. *)
  Lemma train_scales_increment ref b : forall n j0 (st st' : tstate),
    train_scales n_kinds data true ref b (seq j0 n) st = (st', None) ->
    forall k, k < n_kinds -> length (t_models st' k) = length (t_models st k) /\
      forall i, if (j0 <=? i) && (i <? j0 + n)
                then exists m d, nth_error (t_models st k) i = Some m /\ data k i ref b = Ok d /\ nth_error (t_models st' k) i = Some (m ++ [d])
                else nth_error (t_models st' k) i = nth_error (t_models st k) i.
  Proof.
    induction n as [|n IH]; intros j0 st st' H k Hk.
    - assert (st' = st) by (cbn in H; congruence). subst. split; [reflexivity|]. intros i.
      destruct (Nat.leb_spec j0 i); destruct (Nat.ltb_spec i (j0 + 0)); cbn; try lia; reflexivity.
    - cbn [seq train_scales] in H. apply andthen_ok in H. destruct H as (s & H1 & H2).
      pose proof (train_kinds_ok _ _ _ _ _ _ _ (seq_NoDup n_kinds 0) H1) as HK.
      destruct (HK k) as [_ B]. destruct B as (d & Hd & m & Hm & Es); [apply in_seq; lia|].
      assert (Hj : j0 < length (t_models st k)) by (apply nth_error_Some; congruence).
      destruct (IH _ _ _ H2 k Hk) as [L Hi]. split; [rewrite L, Es, set_nth_length; auto|].
      intros i. specialize (Hi i). rewrite Es in Hi. rewrite nth_error_set_nth in Hi by exact Hj.
      destruct (Nat.eqb_spec i j0) as [Heq|Hne].
      + subst i. rewrite Nat.leb_refl. destruct (Nat.ltb_spec j0 (j0 + S n)); [|lia]. cbn.
        destruct (Nat.leb_spec (S j0) j0); [lia|]. cbn in Hi. exists m, d. auto.
      + replace (S j0 <=? i) with (j0 <=? i) in Hi
          by (destruct (Nat.leb_spec j0 i); destruct (Nat.leb_spec (S j0) i); try reflexivity; lia).
        replace (S j0 + n) with (j0 + S n) in Hi by lia. exact Hi.
  Qed.

  Lemma train_batch_build ref b (st st' : tstate) : t_ref st = Some ref -> (forall k, t_models st k = []) ->
    train_batch n_scales n_kinds data false b st = (st', None) ->
    one_model_per_scale data n_scales n_kinds (t_models st') ref [b].
  Proof.
    unfold train_batch. intros -> H0 H k Hk.
    destruct (train_scales_build _ _ _ _ _ _ H) with (k := k) as (ds & L & E & Hds); [intros; rewrite H0; reflexivity|exact Hk|].
    rewrite H0 in E. cbn [app] in E. rewrite E. split; [rewrite map_length; exact L|].
    intros j m Hm. rewrite nth_error_map in Hm. destruct (nth_error ds j) as [d|] eqn:Ed; [|discriminate].
    assert (m = [d]) by (cbn in Hm; congruence). subst. constructor; [|constructor]. apply (Hds j). exact Ed.
  Qed.

  Lemma train_batch_increment ref b bs (st st' : tstate) : t_ref st = Some ref ->
    one_model_per_scale data n_scales n_kinds (t_models st) ref bs ->
    train_batch n_scales n_kinds data true b st = (st', None) ->
    one_model_per_scale data n_scales n_kinds (t_models st') ref (bs ++ [b]).
  Proof.
    unfold train_batch. intros -> H0 H k Hk. destruct (H0 k Hk) as [L Hm0].
    destruct (train_scales_increment _ _ _ _ _ _ H k Hk) as [L' Hi]. split; [exact (eq_trans L' L)|].
    intros j m Hm. assert (Hj : j < n_scales) by (rewrite <- (eq_trans L' L); apply nth_error_Some; rewrite Hm; discriminate).
    specialize (Hi j). destruct (Nat.ltb_spec j (0 + n_scales)); [|lia]. cbn [Nat.leb andb] in Hi.
    destruct Hi as (m0 & d & E1 & Ed & E2). assert (E : Some m = Some (m0 ++ [d])) by (transitivity (nth_error (t_models st' k) j); [symmetry; exact Hm|exact E2]).
    assert (m = m0 ++ [d]) by congruence. subst.
    apply Forall2_app; [apply Hm0; exact E1|repeat constructor; exact Ed].
  Qed.

  Lemma train_batches_increment ref : forall bs inc k (st st' : tstate) done,
    inc = true \/ 0 < k -> t_ref st = Some ref ->
    one_model_per_scale data n_scales n_kinds (t_models st) ref done ->
    train_batches n_scales n_kinds data reference_of inc k bs st = (st', None) ->
    one_model_per_scale data n_scales n_kinds (t_models st') ref (done ++ bs) /\ t_ref st' = Some ref.
  Proof.
    induction bs as [|b r IH]; intros inc k st st' done Hinc Href Hgood H.
    - assert (st' = st) by (cbn in H; congruence). subst. rewrite app_nil_r. auto.
    - cbn [train_batches] in H. rewrite Href in H.
      assert (E0 : (if k =? 0 then (st, None) else (st, None)) = (st, @None exn)) by (destruct (k =? 0); reflexivity).
      rewrite E0 in H. apply andthen_ok in H. destruct H as (s0 & Hs0 & H). assert (s0 = st) by congruence. subst s0.
      apply andthen_ok in H. destruct H as (s & H1 & H2).
      assert (Ei : (if 0 <? k then true else inc) = true) by (destruct (Nat.ltb_spec 0 k); [reflexivity|destruct Hinc; [assumption|lia]]).
      rewrite Ei in *.
      pose proof (train_batch_ref true b st) as Hr. rewrite H1 in Hr. cbn [fst] in Hr. rewrite Href in Hr.
      pose proof (train_batch_increment _ _ _ _ _ Href Hgood H1) as G.
      replace (done ++ b :: r) with ((done ++ [b]) ++ r) by (rewrite <- app_assoc; reflexivity).
      eapply IH; [left; reflexivity|exact Hr|exact G|exact H2].
  Qed.

  Lemma batches_of_cut items bs chunks : (forall n, bs = Some n -> (1 <= n)%Z) ->
    batches_of items bs = Ok chunks -> cut (Img := Img) items bs chunks.
  Proof.
    unfold batches_of, cut. destruct bs as [n|]; intros Hn H; [|congruence].
    specialize (Hn n eq_refl). split; [exact Hn|]. apply Proofs.Base.batch_iff in H; auto.
  Qed.

  Lemma construct_good r items bs (st : tstate) :
    (forall n, bs = Some n -> (1 <= n)%Z /\ items <> []) ->
    construct n_scales n_kinds data reference_of r items bs = (st, None) ->
    exists first rest ref, cut items bs (first :: rest) /\ t_ref st = Some ref /\
      match r with Some r0 => ref = r0 | None => reference_of first = Ok ref end /\
      one_model_per_scale data n_scales n_kinds (t_models st) ref (first :: rest).
  Proof.
    intros Hbs H. unfold construct, train in H. destruct (batches_of items bs) as [chunks|e] eqn:Eb; [|discriminate].
    pose proof Eb as Hcut. apply batches_of_cut in Hcut; [|intros n En; apply (Hbs n En)].
    destruct chunks as [|first rest].
    { exfalso. unfold cut in Hcut. destruct bs as [n|]; [|discriminate]. destruct Hcut as [_ [Hc _]].
      destruct (Hbs n eq_refl) as [_ Hne]. apply Hne. symmetry. exact Hc. }
    exists first, rest. cbn [train_batches Nat.eqb t_ref t_models] in H.
    apply andthen_ok in H. destruct H as (s0 & Hs0 & H).
    assert (Hs : exists ref, s0 = mkT (Some ref) (fun _ => []) /\ match r with Some r0 => ref = r0 | None => reference_of first = Ok ref end).
    { destruct r as [r0|].
      - exists r0. split; [congruence|reflexivity].
      - destruct (reference_of first) as [r0|]; [|discriminate]. exists r0. split; [congruence|reflexivity]. }
    destruct Hs as (ref & -> & Hr). exists ref. split; [exact Hcut|].
    apply andthen_ok in H. destruct H as (s & H1 & H2). cbn [Nat.ltb Nat.leb] in H1, H2.
    pose proof (train_batch_ref false first (mkT (Some ref) (fun _ => []))) as Hrr. rewrite H1 in Hrr. cbn [fst t_ref] in Hrr.
    assert (G : one_model_per_scale data n_scales n_kinds (t_models s) ref [first]).
    { eapply train_batch_build; [| |exact H1]; reflexivity. }
    destruct (train_batches_increment ref rest false 1 s st [first]) as [G' Hr']; auto.
  Qed.

  Lemma increments_good ref : forall calls (st st' : tstate) done,
    (forall items bs n, In (items, bs) calls -> bs = Some n -> (1 <= n)%Z) ->
    t_ref st = Some ref -> one_model_per_scale data n_scales n_kinds (t_models st) ref done ->
    increments n_scales n_kinds data reference_of calls st = (st', None) ->
    exists chunks, Forall2 (fun c ch => cut (fst c) (snd c) ch) calls chunks /\ t_ref st' = Some ref /\
      one_model_per_scale data n_scales n_kinds (t_models st') ref (done ++ concat chunks).
  Proof.
    induction calls as [|[items bs] r IH]; intros st st' done Hbs Href Hgood H.
    - assert (st' = st) by (cbn in H; congruence). subst. exists []. cbn. rewrite app_nil_r. auto.
    - cbn [increments] in H. apply andthen_ok in H. destruct H as (s & H1 & H2).
      unfold increment, train in H1. destruct (batches_of items bs) as [ch|] eqn:Eb; [|discriminate].
      pose proof Eb as Hcut. apply batches_of_cut in Hcut; [|intros n En; apply (Hbs items bs n); [left; reflexivity|exact En]].
      destruct (train_batches_increment ref ch true 0 st s done) as [G Hr]; auto.
      destruct (IH s st' (done ++ ch)) as (chs & F & Hr' & G'); auto.
      { intros i b n Hin. apply (Hbs i b n). right. exact Hin. }
      exists (ch :: chs). split; [constructor; auto|]. split; [exact Hr'|]. cbn [concat]. rewrite app_assoc. exact G'.
  Qed.

  Lemma cut_concat items bs ch : cut (Img := Img) items bs ch -> concat ch = items.
  Proof. unfold cut. destruct bs; [intros [_ [H _]]; exact H|intros ->; cbn; apply app_nil_r]. Qed.

  Lemma cuts_concat : forall (calls : list (list Img * option Z)) chunks,
    Forall2 (fun c ch => cut (fst c) (snd c) ch) calls chunks -> concat (concat chunks) = concat (map fst calls).
  Proof.
    induction 1 as [|c ch r rs H _ IH]; [reflexivity|]. cbn [concat map]. rewrite concat_app, IH. f_equal.
    apply (cut_concat _ (snd c)). exact H.
  Qed.

  (** *** Success *)
  Lemma train_kinds_succeeds inc ref b j : forall ks (st : tstate),
    (forall k, In k ks -> exists d, data k j ref b = Ok d) ->
    NoDup ks ->
    (inc = true -> forall k, In k ks -> j < length (t_models st k)) ->
    exists st', train_kinds data inc ref b j ks st = (st', None).
  Proof.
    induction ks as [|k r IH]; intros st Hd Hnd Hl; [eexists; reflexivity|].
    inversion Hnd as [|? ? Hni Hnd']; subst. cbn [train_kinds].
    destruct (Hd k (or_introl eq_refl)) as [d Ed].
    assert (Hk : exists s, train_kind data inc ref b j k st = (s, None)).
    { unfold train_kind. rewrite Ed. destruct inc; [|eexists; reflexivity].
      destruct (nth_error (t_models st k) j) eqn:E; [eexists; reflexivity|].
      apply nth_error_None in E. specialize (Hl eq_refl k (or_introl eq_refl)). lia. }
    destruct Hk as [s Hs]. rewrite Hs. unfold andthen. cbn [snd fst].
    destruct (train_kind_ok _ _ _ _ _ _ _ Hs) as (_ & _ & Hoth & _).
    apply IH; [intros; apply Hd; right; assumption|exact Hnd'|].
    intros Ei q Hq. rewrite Hoth by (intros ->; contradiction). apply Hl; [exact Ei|right; exact Hq].
  Qed.

  Lemma train_scales_succeeds inc ref b : forall n j0 (st : tstate),
    (forall k j, k < n_kinds -> j0 <= j < j0 + n -> exists d, data k j ref b = Ok d) ->
    (inc = true -> forall k, k < n_kinds -> j0 + n <= length (t_models st k)) ->
    exists st', train_scales n_kinds data inc ref b (seq j0 n) st = (st', None).
  Proof.
    induction n as [|n IH]; intros j0 st Hd Hl; [eexists; reflexivity|].
    cbn [seq train_scales].
    destruct (train_kinds_succeeds inc ref b j0 (seq 0 n_kinds) st) as [s Hs].
    { intros k Hk. apply in_seq in Hk. apply Hd; lia. }
    { apply seq_NoDup. }
    { intros Ei k Hk. apply in_seq in Hk. specialize (Hl Ei k). lia. }
    rewrite Hs. unfold andthen. cbn [snd fst]. apply IH.
    { intros k j Hk Hj. apply Hd; lia. }
    intros Ei k Hk. destruct (train_kinds_ok _ _ _ _ _ _ _ (seq_NoDup n_kinds 0) Hs k) as [_ B].
    destruct B as (d & _ & B); [apply in_seq; lia|]. rewrite Ei in B. destruct B as (m & Hm & ->).
    specialize (Hl Ei k Hk). rewrite set_nth_length; lia.
  Qed.

  Lemma train_batches_succeeds ref : forall bs inc k (st : tstate) done,
    inc = true \/ 0 < k -> t_ref st = Some ref ->
    one_model_per_scale data n_scales n_kinds (t_models st) ref done ->
    (forall b q j, In b bs -> q < n_kinds -> j < n_scales -> exists d, data q j ref b = Ok d) ->
    exists st', train_batches n_scales n_kinds data reference_of inc k bs st = (st', None).
  Proof.
    induction bs as [|b r IH]; intros inc k st done Hinc Href Hgood Hd; [eexists; reflexivity|].
    cbn [train_batches]. rewrite Href.
    assert (E0 : (if k =? 0 then (st, None) else (st, None)) = (st, @None exn)) by (destruct (k =? 0); reflexivity).
    rewrite E0. unfold andthen at 1. cbn [snd fst].
    assert (Ei : (if 0 <? k then true else inc) = true) by (destruct (Nat.ltb_spec 0 k); [reflexivity|destruct Hinc; [assumption|lia]]).
    rewrite Ei.
    assert (Hs : exists s, train_batch n_scales n_kinds data true b st = (s, None)).
    { unfold train_batch. rewrite Href. apply train_scales_succeeds.
      - intros q j Hq Hj. apply Hd; [left; reflexivity|exact Hq|lia].
      - intros _ q Hq. destruct (Hgood q Hq) as [-> _]. lia. }
    destruct Hs as [s Hs]. rewrite Hs. unfold andthen. cbn [snd fst].
    pose proof (train_batch_ref true b st) as Hr. rewrite Hs in Hr. cbn [fst] in Hr. rewrite Href in Hr.
    apply (IH true (S k) s (done ++ [b])); [left; reflexivity|exact Hr| |].
    { apply (train_batch_increment ref b done st s Href Hgood Hs). }
    intros; apply Hd; [right; assumption|assumption|assumption].
  Qed.

  Lemma construct_succeeds r items bs first rest ref :
    batches_of items bs = Ok (first :: rest) ->
    match r with Some r0 => ref = r0 | None => reference_of first = Ok ref end ->
    (forall b q j, In b (first :: rest) -> q < n_kinds -> j < n_scales -> exists d, data q j ref b = Ok d) ->
    exists st, construct n_scales n_kinds data reference_of r items bs = (st, None).
  Proof.
    intros Eb Hr Hd. unfold construct, train. rewrite Eb. cbn [train_batches Nat.eqb t_ref t_models].
    match goal with |- context [andthen ?x _] => assert (E : x = (mkT (Some ref) (fun _ => []), None)) end.
    { destruct r as [r0|]; [subst; reflexivity|rewrite Hr; reflexivity]. }
    rewrite E. unfold andthen at 1. cbn [snd fst]. cbn [Nat.ltb Nat.leb].
    assert (Hs : exists s, train_batch n_scales n_kinds data false first (mkT (Some ref) (fun _ => [])) = (s, None)).
    { unfold train_batch. cbn [t_ref]. apply train_scales_succeeds; [|discriminate].
      intros q j Hq Hj. apply Hd; [left; reflexivity|exact Hq|lia]. }
    destruct Hs as [s Hs]. rewrite Hs. unfold andthen. cbn [snd fst].
    pose proof (train_batch_ref false first (mkT (Some ref) (fun _ => []))) as Hrr. rewrite Hs in Hrr. cbn [fst t_ref] in Hrr.
    apply (train_batches_succeeds ref rest false 1 s [first]); [right; lia|exact Hrr| |].
    - eapply train_batch_build; [| |exact Hs]; reflexivity.
    - intros; apply Hd; [right; assumption|assumption|assumption].
  Qed.

  (** A model whose data is computed sample by sample has consumed the samples, in order. *)
  Lemma trained_on_samples (sample : nat -> nat -> Ref -> Img -> res D) k j ref :
    (forall b, data k j ref b = mapM (sample k j ref) b) ->
    forall batches m, trained_on data k j ref batches m -> mapM (sample k j ref) (concat batches) = Ok (concat m).
  Proof.
    intros Hs. induction 1 as [|b d bs m H _ IH]; [reflexivity|]. cbn [concat].
    rewrite Hs in H. revert d H. induction b as [|x b IHb]; intros d H.
    - assert (d = []) by (cbn in H; congruence). subst. exact IH.
    - cbn [mapM bind app] in *. destruct (sample k j ref x) as [y|]; [|discriminate]. cbn [bind] in *.
      destruct (mapM (sample k j ref) b) as [ys|]; [|discriminate]. cbn [bind] in *.
      assert (d = y :: ys) by congruence. subst. rewrite (IHb ys eq_refl). reflexivity.
  Qed.
End T.

(** *** Active Template Models *)
Section A.
  Context {Ref Tp Wt D Sh : Type}.
  Variable n_scales : nat.
  Variable data : nat -> Ref -> list Sh -> res (list D).
  Variable reference_of : list Sh -> res Ref.
  Variable rescale : Ref -> Tp -> res Tp.
  Variable warp : nat -> Ref -> Tp -> res Wt.
  Set Default Proof Using "Type".
  Notation atm := (atm Ref Wt D).

  Definition atm_models_good (ref : Ref) (batches : list (list Sh)) (ms : list (model D)) : Prop :=
    length ms = n_scales /\ forall j m, nth_error ms j = Some m -> Forall2 (fun b d => data j ref b = Ok d) batches m.

  Lemma atm_scales_build ref t b : forall n j0 (st st' : atm),
    atm_scales data warp false ref t b (seq j0 n) st = (st', None) -> length (a_models st) = j0 ->
    a_ref st' = a_ref st /\
    (exists ds, length ds = n /\ a_models st' = a_models st ++ map (fun d => [d]) ds /\
      forall i d, nth_error ds i = Some d -> data (j0 + i) ref b = Ok d) /\
    (exists ws, length ws = n /\ a_templates st' = a_templates st ++ ws /\
      forall i w, nth_error ws i = Some w -> warp (j0 + i) ref t = Ok w).
  Proof.
    induction n as [|n IH]; intros j0 st st' H Hl.
    - assert (st' = st) by (cbn in H; congruence). subst. split; [reflexivity|]. split; exists []; (split; [reflexivity|]);
        (split; [now rewrite app_nil_r|]); intros [|i]; discriminate.
    - cbn [seq atm_scales] in H. destruct (data j0 ref b) as [d|] eqn:Ed; [|discriminate].
      apply andthen_ok in H. destruct H as (s & H1 & H2). assert (s = mkAtm (a_ref st) (a_models st ++ [[d]]) (a_templates st)) by congruence.
      subst s. clear H1. cbn [a_ref a_models a_templates] in H2. destruct (warp j0 ref t) as [w|] eqn:Ew; [|discriminate].
      apply IH in H2; [|cbn; rewrite app_length; cbn; lia]. cbn [a_ref a_models a_templates] in H2.
      destruct H2 as (R & (ds & L1 & E1 & P1) & (ws & L2 & E2 & P2)). split; [exact R|]. split.
      + exists (d :: ds). split; [cbn; lia|]. split; [rewrite E1, <- app_assoc; reflexivity|].
        intros [|i] x Hx; cbn [nth_error] in Hx; [rewrite Nat.add_0_r; congruence|].
        replace (j0 + S i) with (S j0 + i) by lia. auto.
      + exists (w :: ws). split; [cbn; lia|]. split; [rewrite E2, <- app_assoc; reflexivity|].
        intros [|i] x Hx; cbn [nth_error] in Hx; [rewrite Nat.add_0_r; congruence|].
        replace (j0 + S i) with (S j0 + i) by lia. auto.
  Qed.

  Lemma atm_scales_increment ref t b : forall n j0 (st st' : atm),
    atm_scales data warp true ref t b (seq j0 n) st = (st', None) ->
    a_ref st' = a_ref st /\ length (a_models st') = length (a_models st) /\
    (forall i, if (j0 <=? i) && (i <? j0 + n)
               then exists m d, nth_error (a_models st) i = Some m /\ data i ref b = Ok d /\ nth_error (a_models st') i = Some (m ++ [d])
               else nth_error (a_models st') i = nth_error (a_models st) i) /\
    (exists ws, length ws = n /\ a_templates st' = a_templates st ++ ws /\
      forall i w, nth_error ws i = Some w -> warp (j0 + i) ref t = Ok w).
  Proof.
    induction n as [|n IH]; intros j0 st st' H.
    - assert (st' = st) by (cbn in H; congruence). subst. split; [reflexivity|]. split; [reflexivity|]. split.
      + intros i. destruct (Nat.leb_spec j0 i); destruct (Nat.ltb_spec i (j0 + 0)); cbn; try lia; reflexivity.
      + exists []. split; [reflexivity|]. split; [now rewrite app_nil_r|]. intros [|i]; discriminate.
    - cbn [seq atm_scales] in H. destruct (data j0 ref b) as [d|] eqn:Ed; [|discriminate].
      apply andthen_ok in H. destruct H as (s & H1 & H2).
      destruct (nth_error (a_models st) j0) as [m|] eqn:Em; [|discriminate].
      assert (s = mkAtm (a_ref st) (set_nth j0 (m ++ [d]) (a_models st)) (a_templates st)) by congruence.
      subst s. clear H1. cbn [a_ref a_models a_templates] in H2. destruct (warp j0 ref t) as [w|] eqn:Ew; [|discriminate].
      apply IH in H2. cbn [a_ref a_models a_templates] in H2. destruct H2 as (R & L & Hi & (ws & L2 & E2 & P2)).
      assert (Hj : j0 < length (a_models st)) by (apply nth_error_Some; congruence).
      split; [exact R|]. split; [rewrite L, set_nth_length; auto|]. split.
      + intros i. specialize (Hi i). rewrite nth_error_set_nth in Hi by exact Hj.
        destruct (Nat.eqb_spec i j0) as [Heq|Hne].
        * subst i. rewrite Nat.leb_refl. destruct (Nat.ltb_spec j0 (j0 + S n)); [|lia]. cbn.
          destruct (Nat.leb_spec (S j0) j0); [lia|]. cbn in Hi. exists m, d. auto.
        * replace (S j0 <=? i) with (j0 <=? i) in Hi
            by (destruct (Nat.leb_spec j0 i); destruct (Nat.leb_spec (S j0) i); try reflexivity; lia).
          replace (S j0 + n) with (j0 + S n) in Hi by lia. exact Hi.
      + exists (w :: ws). split; [cbn; lia|]. split; [rewrite E2, <- app_assoc; reflexivity|].
        intros [|i] x Hx; cbn [nth_error] in Hx; [rewrite Nat.add_0_r; congruence|].
        replace (j0 + S i) with (S j0 + i) by lia. auto.
  Qed.

  Lemma atm_batches_later ref t : forall bs inc k (st st' : atm) done, 0 < k -> a_ref st = Some ref ->
    atm_models_good ref done (a_models st) ->
    atm_batches n_scales data reference_of rescale warp inc k t bs st = (st', None) ->
    a_ref st' = Some ref /\ atm_models_good ref (done ++ bs) (a_models st') /\
    exists ws, a_templates st' = a_templates st ++ ws /\ length ws = length bs * n_scales.
  Proof.
    induction bs as [|b r IH]; intros inc k st st' done Hk Href Hgood H.
    - assert (st' = st) by (cbn in H; congruence). subst. rewrite app_nil_r. split; [exact Href|]. split; [exact Hgood|].
      exists []. split; [now rewrite app_nil_r|reflexivity].
    - cbn [atm_batches] in H. rewrite Href in H. apply andthen_ok in H. destruct H as (s0 & H0 & H).
      assert (s0 = st) by congruence. subst s0. rewrite Href in H. destruct (Nat.eqb_spec k 0); [lia|].
      destruct (Nat.ltb_spec 0 k); [|lia]. apply andthen_ok in H. destruct H as (s & HS1 & HS2).
      destruct (atm_scales_increment _ _ _ _ _ _ _ HS1) as (R & L & Hi & (ws & L2 & E2 & _)).
      destruct (IH true (S k) s st' (done ++ [b])) as (R' & G & (ws' & E' & L')).
      + lia.
      + congruence.
      + destruct Hgood as [Hl Hm]. split; [congruence|]. intros j m Hjm.
        assert (Hj : j < n_scales) by (rewrite <- Hl, <- L; apply nth_error_Some; congruence).
        specialize (Hi j). destruct (Nat.ltb_spec j (0 + n_scales)); [|lia]. cbn [Nat.leb andb] in Hi.
        destruct Hi as (m0 & d & Em & Ed & Em'). assert (m = m0 ++ [d]) by congruence. subst.
        apply Forall2_app; [apply Hm; exact Em|repeat constructor; exact Ed].
      + exact HS2.
      + split; [exact R'|]. split; [rewrite <- app_assoc in G; exact G|].
        exists (ws ++ ws'). split; [rewrite E', E2, app_assoc; reflexivity|]. rewrite app_length, L', L2. cbn [length]. lia.
  Qed.

  Lemma atm_construct_good r t items bs (st : atm) :
    (forall n, bs = Some n -> (1 <= n)%Z /\ items <> []) ->
    atm_construct n_scales data reference_of rescale warp r t items bs = (st, None) ->
    exists first rest ref, cut items bs (first :: rest) /\ a_ref st = Some ref /\
      match r with Some r0 => ref = r0 | None => reference_of first = Ok ref end /\
      atm_models_good ref (first :: rest) (a_models st) /\
      length (a_templates st) = length (first :: rest) * n_scales /\
      exists t', rescale ref t = Ok t' /\
      forall j w, j < n_scales -> nth_error (a_templates st) j = Some w -> warp j ref t' = Ok w.
  Proof.
    intros Hbs H. unfold atm_construct, atm_train in H. destruct (batches_of items bs) as [chunks|e] eqn:Eb; [|discriminate].
    pose proof Eb as Hcut. apply batches_of_cut in Hcut; [|intros n En; apply (Hbs n En)].
    destruct chunks as [|first rest].
    { exfalso. unfold cut in Hcut. destruct bs as [n|]; [|discriminate]. destruct Hcut as [_ [Hc _]].
      destruct (Hbs n eq_refl) as [_ Hne]. apply Hne. symmetry. exact Hc. }
    exists first, rest. cbn [atm_batches Nat.eqb a_ref a_models a_templates] in H.
    apply andthen_ok in H. destruct H as (s0 & Hs0 & H).
    assert (Hs : exists ref, s0 = mkAtm (Some ref) [] [] /\ match r with Some r0 => ref = r0 | None => reference_of first = Ok ref end).
    { destruct r as [r0|].
      - exists r0. split; [congruence|reflexivity].
      - destruct (reference_of first) as [r0|]; [|discriminate]. exists r0. split; [congruence|reflexivity]. }
    destruct Hs as (ref & -> & Hr). exists ref. split; [exact Hcut|]. cbn [a_ref] in H.
    destruct (rescale ref t) as [t'|] eqn:Et; [|discriminate].
    apply andthen_ok in H. destruct H as (s & H1 & H2). cbn [Nat.ltb Nat.leb] in H1, H2.
    apply atm_scales_build in H1; [|reflexivity]. cbn [a_ref a_models a_templates app] in H1.
    destruct H1 as (R & (ds & L1 & E1 & P1) & (ws & L2 & E2 & P2)).
    destruct (atm_batches_later ref t' rest false 1 s st [first]) as (R' & G & (ws' & E' & L')); auto.
    { split; [rewrite E1, map_length; exact L1|]. intros j m Hm. rewrite E1, nth_error_map in Hm.
      destruct (nth_error ds j) as [d|] eqn:Ed; [|discriminate]. assert (m = [d]) by (cbn in Hm; congruence). subst.
      constructor; [apply (P1 j); exact Ed|constructor]. }
    split; [exact R'|]. split; [exact Hr|]. split; [exact G|]. split; [rewrite E', E2, app_length, L', L2; cbn [length]; lia|].
    exists t'. split; [reflexivity|]. intros j w Hj Hw. rewrite E', E2, nth_error_app1 in Hw by lia. apply (P2 j w Hw).
  Qed.
End A.
