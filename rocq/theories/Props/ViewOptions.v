(** C117: every landmark group is drawn with its own options; but viewing may change the caller's lists. *)
From Coq Require Import List Arith Lia.
From Verif.Model Require Import Py ViewOptions.
From Verif.Spec Require Import ViewOptions.
Import ListNotations.

Section C117.
  Context {V : Type}.
  Implicit Types h : lists V.

  Definition sim n h h' := forall r, h' r = h r \/ exists v, h r = [v] /\ h' r = repeat v n.
  Lemma sim_refl n h : sim n h h. Proof. intros r. now left. Qed.
  Lemma repeat_single (v w : V) n : repeat v n = [w] -> n = 1 /\ v = w.
  Proof. destruct n as [|[|n]]; cbn; intros H; try discriminate. injection H as ->. auto. Qed.
  Lemma sim_trans n h1 h2 h3 : sim n h1 h2 -> sim n h2 h3 -> sim n h1 h3.
  Proof.
    intros A B r. destruct (A r) as [E|(v & E & F)], (B r) as [E'|(w & E' & F')].
    - left. congruence.
    - right. exists w. split; congruence.
    - right. exists v. split; congruence.
    - right. exists v. split; [exact E|]. rewrite F in E'. apply repeat_single in E'. destruct E' as [-> ->]. exact F'.
  Qed.
  Lemma sim_full n h h' r : sim n h h' -> length (h r) = n -> h' r = h r.
  Proof. intros S L. destruct (S r) as [E|(v & E & F)]; [exact E|]. rewrite E in L. cbn in L. subst n. cbn in F. congruence. Qed.
  Lemma step n d h0 h a : sim n h0 h -> forall h' r, check_multi_argument n d h a = (h', r) ->
    sim n h0 h' /\ ((r = Err ValueError /\ ~ acceptable h0 n (d, a)) \/
      exists x, r = Ok x /\ acceptable h0 n (d, a) /\ forall h2, sim n h' h2 -> forall k, k < n -> item h2 x k = meant h0 a k).
  Proof.
    intros S h' r. unfold check_multi_argument, acceptable. cbn [fst snd]. destruct a as [v|p].
    - intros E. injection E as <- <-. split; [exact S|]. destruct (d v); [right|left; split; [reflexivity|discriminate]].
      eexists. split; [reflexivity|]. split; [reflexivity|]. intros h2 _ k K. cbn. now apply nth_error_repeat.
    - assert (Long : length (h p) <> 1 -> (h, if length (h p) =? n then Ok (Same p) else Err ValueError) = (h', r) ->
        sim n h0 h' /\ ((r = Err ValueError /\ ~ (length (h0 p) = 1 \/ length (h0 p) = n)) \/
          exists x, r = Ok x /\ (length (h0 p) = 1 \/ length (h0 p) = n) /\ forall h2, sim n h' h2 -> forall k, k < n -> item h2 x k = meant h0 (Ref p) k)).
      { intros N E. injection E as <- <-. split; [exact S|]. destruct (S p) as [Q|(v & Q & F)].
        - rewrite <- Q. destruct (Nat.eqb_spec (length (h p)) n) as [L|L]; [right|left; split; [reflexivity|tauto]].
          eexists. split; [reflexivity|]. split; [now right|]. intros h2 S2 k K. unfold item, meant. rewrite <- Q. apply Nat.eqb_neq in N. rewrite N.
          now rewrite (sim_full n h h2 p S2 L).
        - assert (L : length (h p) = n) by (rewrite F; apply repeat_length). rewrite L, Nat.eqb_refl. right.
          eexists. split; [reflexivity|]. split; [left; now rewrite Q|]. intros h2 S2 k K. unfold item, meant. rewrite Q. cbn [length Nat.eqb nth_error].
          rewrite (sim_full n h h2 p S2 L), F. now apply nth_error_repeat. }
      destruct (h p) as [|v [|w l]] eqn:E; [apply Long; cbn; lia| |apply Long; cbn; lia]. clear Long.
      intros Q. injection Q as <- <-.
      assert (U : sim n h (upd h p (repeat v n))).
      { intros q. unfold upd. destruct (Nat.eqb_spec q p) as [->|_]; [right; eauto|now left]. }
      split; [exact (sim_trans _ _ _ _ S U)|]. right. eexists. split; [reflexivity|].
      assert (Up : upd h p (repeat v n) p = repeat v n) by (unfold upd; now rewrite Nat.eqb_refl).
      assert (It : forall h2, sim n (upd h p (repeat v n)) h2 -> forall k, k < n -> item h2 (Same p) k = Some v).
      { intros h2 S2 k K. unfold item. rewrite (sim_full n _ h2 p S2) by (rewrite Up; apply repeat_length). rewrite Up. now apply nth_error_repeat. }
      destruct (S p) as [Z|(u & Z & F)].
      + rewrite E in Z. split; [left; now rewrite <- Z|]. intros h2 S2 k K. rewrite (It h2 S2 k K). cbn. now rewrite <- Z.
      + split; [left; now rewrite Z|]. intros h2 S2 k K. rewrite (It h2 S2 k K). cbn. rewrite Z. cbn.
        rewrite E in F. symmetry in F. apply repeat_single in F. destruct F as [_ ->]. reflexivity.
  Qed.
  Lemma check_all_spec n h0 : forall opts h, sim n h0 h -> forall h' r, check_all n h opts = (h', r) ->
    sim n h h' /\ ((r = Err ValueError /\ exists o, In o opts /\ ~ acceptable h0 n o) \/
      exists xs, r = Ok xs /\ (forall o, In o opts -> acceptable h0 n o) /\
        forall h2, sim n h' h2 -> forall k, k < n -> map (fun x => item h2 x k) xs = map (fun o => meant h0 (snd o) k) opts).
  Proof.
    induction opts as [|[d a] opts IH]; intros h S h' r; cbn [check_all].
    - intros E. injection E as <- <-. split; [apply sim_refl|]. right. exists []. repeat split. now intros o [].
    - destruct (check_multi_argument n d h a) as [h1 r1] eqn:C.
      pose proof (step n d h0 h a S _ _ C) as [S1 A]. pose proof (step n d h h a (sim_refl n h) _ _ C) as [S1' _].
      destruct A as [[-> N]|(x & -> & Y & I)].
      + intros E. injection E as <- <-. split; [exact S1'|]. left. split; [reflexivity|]. exists (d, a). split; [now left|exact N].
      + destruct (check_all n h1 opts) as [h2 r2] eqn:D. destruct (IH h1 S1 _ _ D) as [S2 B]. intros E. injection E as <- <-.
        split; [exact (sim_trans _ _ _ _ S1' S2)|]. destruct B as [[-> (o & O & N)]|(xs & -> & Ys & Is)].
        * left. split; [reflexivity|]. exists o. split; [now right|exact N].
        * right. exists (x :: xs). split; [reflexivity|]. split.
          -- intros o [<-|O]; [exact Y|now apply Ys].
          -- intros h3 S3 k K. cbn [map snd]. f_equal; [apply I; [exact (sim_trans _ _ _ _ S2 S3)|exact K]|now apply Is].
  Qed.

  (** Every group gets, for every option, the value that the caller wrote for it: also if options share lists. *)
  Theorem c117_values h n opts h' out : view h n opts = (h', Ok out) ->
    length out = n /\ forall k, k < n -> nth_error out k = Some (map (fun o => meant h (snd o) k) opts).
  Proof.
    unfold view. destruct (check_all n h opts) as [h1 r] eqn:C. destruct (check_all_spec n h opts h (sim_refl n h) _ _ C) as [_ [[-> _]|(xs & -> & _ & I)]].
    - discriminate.
    - intros E. injection E as <- <-. split; [now rewrite map_length, seq_length|]. intros k K.
      rewrite nth_error_map. rewrite (nth_error_nth' _ 0) by now rewrite seq_length. rewrite seq_nth by exact K. cbn.
      f_equal. now apply I; [apply sim_refl|].
  Qed.
  (** It raises exactly if an option is neither of the right type nor a list of one value or of a value per group. *)
  Theorem c117_raises h n opts :
    (snd (view h n opts) = Err ValueError <-> exists o, In o opts /\ ~ acceptable h n o) /\
    ((exists out, snd (view h n opts) = Ok out) <-> forall o, In o opts -> acceptable h n o).
  Proof.
    unfold view. destruct (check_all n h opts) as [h1 r] eqn:C. destruct (check_all_spec n h opts h (sim_refl n h) _ _ C) as [_ [[-> (o & O & N)]|(xs & -> & Y & _)]]; cbn.
    - split; split; intros H; [eauto|reflexivity|destruct H; discriminate|destruct (N (H o O))].
    - split; split; intros H; [discriminate|destruct H as (o & O & N); destruct (N (Y o O))|exact Y|eauto].
  Qed.
  (** The caller's lists are kept if there is one group, and those that do not have exactly one value are kept always. *)
  Theorem c117_kept_partial h n opts r : n = 1 \/ length (h r) <> 1 -> fst (view h n opts) r = h r.
  Proof.
    intros H. unfold view. destruct (check_all n h opts) as [h1 x] eqn:C. destruct (check_all_spec n h opts h (sim_refl n h) _ _ C) as [S _]. cbn.
    destruct (S r) as [E|(v & E & F)]; [exact E|]. destruct H as [->|H]; [now rewrite E|]. rewrite E in H. now destruct H.
  Qed.
  (** Earlier views with the same number of groups, whatever their options and whether they raised, change no later view. *)
  Lemma check_all_sim n : forall (calls : list (list ((V -> bool) * arg V))) h, sim n h (fold_left (fun h opts => fst (view h n opts)) calls h).
  Proof.
    induction calls as [|o calls IH]; intros h; cbn [fold_left]; [apply sim_refl|]. refine (sim_trans _ _ _ _ _ (IH _)).
    unfold view. destruct (check_all n h o) as [h1 x] eqn:C. exact (proj1 (check_all_spec n h o h (sim_refl n h) _ _ C)).
  Qed.
  Theorem c117_same_groups h n calls opts :
    snd (view (fold_left (fun h opts => fst (view h n opts)) calls h) n opts) = snd (view h n opts).
  Proof.
    pose proof (check_all_sim n calls h) as S. set (g := fold_left _ calls h) in *. clearbody g. unfold view.
    destruct (check_all n g opts) as [g1 x] eqn:Cg, (check_all n h opts) as [h1 y] eqn:Ch.
    destruct (check_all_spec n h opts g S _ _ Cg) as [_ A]. destruct (check_all_spec n h opts h (sim_refl n h) _ _ Ch) as [_ B]. cbn [snd].
    destruct A as [[-> (o & O & N)]|(xs & -> & Y & I)], B as [[-> (o' & O' & N')]|(ys & -> & Y' & I')].
    - reflexivity.
    - destruct (N (Y' o O)).
    - destruct (N' (Y o' O')).
    - f_equal. apply map_ext_in. intros k K. apply in_seq in K. rewrite (I g1 (sim_refl _ _)), (I' h1 (sim_refl _ _)) by lia. reflexivity.
  Qed.
  (** A list of one value is not kept: it comes back with a value per group, so that the same call for a result with another
      number of groups, which would have been fine, raises. *)
  Theorem c117_kept_refuted h r v n m d : h r = [v] -> n <> 1 -> n <> m ->
    let h' := fst (view h n [(d, Ref r)]) in
    h' r = repeat v n /\ h' r <> h r /\ (exists out, snd (view h m [(d, Ref r)]) = Ok out) /\ snd (view h' m [(d, Ref r)]) = Err ValueError.
  Proof.
    intros E N M h'. assert (Q : h' r = repeat v n).
    { unfold h', view. cbn [check_all check_multi_argument]. rewrite E. cbn. unfold upd. now rewrite Nat.eqb_refl. }
    split; [exact Q|]. split.
    - rewrite Q, E. intros X. now apply repeat_single in X.
    - split.
      + apply c117_raises. intros o [<-|[]]. left. cbn. now rewrite E.
      + apply c117_raises. exists (d, Ref r). split; [now left|]. unfold acceptable. cbn [snd]. rewrite Q, repeat_length. tauto.
  Qed.
End C117.

(** Three groups: a style for all, a list of widths, a list of one size; then two groups with the same list of one size. *)
Definition ex_lists : lists nat := fun r => match r with 0 => [1; 2; 3] | 1 => [7] | _ => [] end.
Example c117_ex :
  snd (view ex_lists 3 [(fun _ => true, Value 9); (fun _ => true, Ref 0); (fun _ => true, Ref 1)]) =
    Ok [[Some 9; Some 1; Some 7]; [Some 9; Some 2; Some 7]; [Some 9; Some 3; Some 7]] /\
  snd (view (fst (view ex_lists 3 [(fun _ => true, Ref 1)])) 2 [(fun _ => true, Ref 1)]) = Err ValueError.
Proof. split; reflexivity. Qed.

Print Assumptions c117_values.
Print Assumptions c117_raises.
Print Assumptions c117_kept_partial.
Print Assumptions c117_kept_refuted.
Print Assumptions c117_same_groups.
