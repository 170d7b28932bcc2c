(** Lemmas about the error statistics. *)
From Coq Require Import List QArith Qround Qfield ZArith Bool Lia Lqa Permutation Arith.
From Verif.Model Require Import Py Stats.
From Verif.Spec Require Import Stats.
From Verif.Proofs Require Import Recon.
Import ListNotations.
Local Open Scope Q_scope.

Lemma Forall2_len {A B} (R : A -> B -> Prop) l l' : Forall2 R l l' -> length l = length l'.
Proof. induction 1; cbn; congruence. Qed.

Definition nle (l : list Q) (x : Q) : nat := count_nonzero (map (fun e => Qle_bool e x) l).
Definition ced_at (l : list Q) (x : Q) : Q := inject_Z (Z.of_nat (nle l x)) / inject_Z (Z.of_nat (length l)).

Lemma nle_cons e l x : nle (e :: l) x = ((if Qle_bool e x then 1 else 0) + nle l x)%nat.
Proof. unfold nle, count_nonzero. cbn [map filter]. destruct (Qle_bool e x); reflexivity. Qed.

Lemma Qle_bool_false a b : Qle_bool a b = false -> b < a.
Proof. intros H. apply Qnot_le_lt. intros K. apply Qle_bool_iff in K. congruence. Qed.

Lemma nle_counts l x : counts (fun e => e <= x) l (nle l x).
Proof.
  induction l as [|e l IH]; [constructor|]. rewrite nle_cons. destruct (Qle_bool e x) eqn:E.
  - apply counts_yes; [apply Qle_bool_iff; exact E|exact IH].
  - apply counts_no; [|exact IH]. intros K. apply Qle_bool_iff in K. congruence.
Qed.
Lemma nle_bound l x : (nle l x <= length l)%nat.
Proof. induction l as [|e l IH]; [auto|]. rewrite nle_cons. cbn [length]. destruct (Qle_bool e x); lia. Qed.
Lemma nle_mono l x y : x <= y -> (nle l x <= nle l y)%nat.
Proof.
  intros H. induction l as [|e l IH]; [auto|]. rewrite !nle_cons. destruct (Qle_bool e x) eqn:E.
  - assert (Qle_bool e y = true) as ->; [|lia]. apply Qle_bool_iff. apply Qle_bool_iff in E. eapply Qle_trans; eauto.
  - destruct (Qle_bool e y); lia.
Qed.
Lemma nle_all l x : (forall e, In e l -> e <= x) -> nle l x = length l.
Proof.
  induction l as [|e l IH]; [reflexivity|]. intros H. rewrite nle_cons, IH by (intros; apply H; right; assumption).
  rewrite (proj2 (Qle_bool_iff e x)) by (apply H; left; reflexivity). reflexivity.
Qed.
Lemma nle_none l x : (forall e, In e l -> x < e) -> nle l x = 0%nat.
Proof.
  induction l as [|e l IH]; [reflexivity|]. intros H. rewrite nle_cons, IH by (intros; apply H; right; assumption).
  destruct (Qle_bool e x) eqn:E; [|reflexivity]. apply Qle_bool_iff in E. specialize (H e (or_introl eq_refl)). exfalso. apply (Qlt_not_le _ _ H E).
Qed.
Lemma nle_perm l l' x : Permutation l l' -> nle l x = nle l' x.
Proof. induction 1; rewrite ?nle_cons; lia. Qed.
Lemma nle_shrink l l' x : Forall2 (fun e e' => e' <= e) l l' -> (nle l x <= nle l' x)%nat.
Proof.
  induction 1 as [|e e' l l' H _ IH]; [auto|]. rewrite !nle_cons. destruct (Qle_bool e x) eqn:E.
  - assert (Qle_bool e' x = true) as ->; [|lia]. apply Qle_bool_iff. apply Qle_bool_iff in E. eapply Qle_trans; eauto.
  - destruct (Qle_bool e' x); lia.
Qed.

Lemma len_pos (l : list Q) : l <> [] -> 0 < inject_Z (Z.of_nat (length l)).
Proof. destruct l; [congruence|]. intros _. cbn [length]. change 0 with (inject_Z 0). rewrite <- Zlt_Qlt. lia. Qed.

Lemma nat_le_Q a b : (a <= b)%nat -> inject_Z (Z.of_nat a) <= inject_Z (Z.of_nat b).
Proof. intros. rewrite <- Zle_Qle. lia. Qed.

Lemma ced_le l x y : l <> [] -> x <= y -> ced_at l x <= ced_at l y.
Proof.
  intros Hl H. unfold ced_at. pose proof (len_pos l Hl). apply Qle_shift_div_l; [assumption|].
  setoid_replace (inject_Z (Z.of_nat (nle l x)) / inject_Z (Z.of_nat (length l)) * inject_Z (Z.of_nat (length l)))
    with (inject_Z (Z.of_nat (nle l x))) by (field; intros K; lra).
  apply nat_le_Q, nle_mono, H.
Qed.
Lemma ced_bounds l x : l <> [] -> 0 <= ced_at l x <= 1.
Proof.
  intros Hl. pose proof (len_pos l Hl). unfold ced_at. split.
  - apply Qle_shift_div_l; [assumption|]. rewrite Qmult_0_l. apply (nat_le_Q 0). lia.
  - apply Qle_shift_div_r; [assumption|]. rewrite Qmult_1_l. apply nat_le_Q, nle_bound.
Qed.
Lemma ced_shrink l l' x : l <> [] -> Forall2 (fun e e' => e' <= e) l l' -> ced_at l x <= ced_at l' x.
Proof.
  intros Hl H. unfold ced_at. rewrite (Forall2_len _ _ _ H). assert (Hl' : l' <> []) by (intros ->; inversion H; congruence).
  pose proof (len_pos l' Hl'). apply Qle_shift_div_l; [assumption|].
  setoid_replace (inject_Z (Z.of_nat (nle l x)) / inject_Z (Z.of_nat (length l')) * inject_Z (Z.of_nat (length l')))
    with (inject_Z (Z.of_nat (nle l x))) by (field; intros K; lra).
  apply nat_le_Q, nle_shrink, H.
Qed.
Lemma ced_all l x : l <> [] -> (forall e, In e l -> e <= x) -> ced_at l x == 1.
Proof. intros Hl H. unfold ced_at. rewrite nle_all by exact H. pose proof (len_pos l Hl). field. intros K. lra. Qed.
Lemma ced_none l x : l <> [] -> (forall e, In e l -> x < e) -> ced_at l x == 0.
Proof. intros Hl H. unfold ced_at. rewrite nle_none by exact H. pose proof (len_pos l Hl). change (inject_Z (Z.of_nat 0)) with 0. field. intros K. lra. Qed.
Lemma ced_fraction l x : l <> [] -> fraction (fun e => e <= x) l (ced_at l x).
Proof.
  intros Hl. exists (nle l x). split; [apply nle_counts|]. unfold ced_at. pose proof (len_pos l Hl). field. intros K. lra.
Qed.

(** [compute_cumulative_error] evaluates [ced_at]. *)
Definition comparable (errors : errseq) (x : binval) : Prop :=
  match errors, x with EList _, BPy _ => False | _, _ => True end.
Lemma less_equal_ok errors x : comparable errors x ->
  less_equal errors x = Ok (map (fun e => Qle_bool e (bin_value x)) (err_items errors)).
Proof. destruct errors, x; cbn; intros H; try reflexivity. destruct H. Qed.
Lemma cumulative_ok errors bins : err_items errors <> [] -> Forall (comparable errors) bins ->
  compute_cumulative_error errors bins = Ok (map (fun b => ced_at (err_items errors) (bin_value b)) bins).
Proof.
  intros Hne. unfold compute_cumulative_error. induction 1 as [|b bins Hb _ IH]; [reflexivity|].
  cbn [mapM map]. rewrite (less_equal_ok _ _ Hb). cbn [bind].
  destruct (length (err_items errors)) eqn:El; [destruct (err_items errors); [congruence|discriminate]|].
  cbn [bind]. rewrite IH. cbn [bind]. do 2 f_equal. unfold ced_at. rewrite El. reflexivity.
Qed.

(** *** The integration rule on evenly spaced points *)
Inductive even (h : Q) : list Q -> Prop :=
| even_one : forall x, even h [x]
| even_cons : forall x y l, y - x == h -> even h (y :: l) -> even h (x :: y :: l).

Lemma even_tl h x y l : even h (x :: y :: l) -> even h (y :: l).
Proof. inversion 1; assumption. Qed.
Lemma even_gap h x y l : even h (x :: y :: l) -> y - x == h.
Proof. inversion 1; assumption. Qed.

Lemma term_even h h0 h1 y0 y1 y2 : 0 < h -> h0 == h -> h1 == h ->
  simpson_term h0 h1 y0 y1 y2 == h / 3 * (y0 + 4 * y1 + y2).
Proof. intros Hh E0 E1. unfold simpson_term. rewrite E0, E1. field. intros K. lra. Qed.

Lemma pair_ind {A} (P : list A -> Prop) : P [] -> (forall x, P [x]) -> (forall x y l, P l -> P (y :: l) -> P (x :: y :: l)) -> forall l, P l.
Proof.
  intros H0 H1 H2. assert (forall l, P l /\ forall x, P (x :: l)) as G; [|intros l; apply G].
  induction l as [|y l [IH1 IH2]]; split; auto.
Qed.

Lemma basic_mono h : 0 < h -> forall xs ys ys', even h xs -> Forall2 Qle ys ys' -> basic_simpson xs ys <= basic_simpson xs ys'.
Proof.
  intros Hh xs. remember (length xs) as n eqn:Hn. revert xs Hn. induction n as [n IH] using lt_wf_ind. intros xs -> ys ys' He HF.
  destruct xs as [|x0 [|x1 [|x2 xs]]]; try (cbn; apply Qle_refl).
  destruct HF as [|y0 y0' ys ys' H0 HF]; [apply Qle_refl|].
  destruct HF as [|y1 y1' ys ys' H1 HF]; [apply Qle_refl|].
  destruct HF as [|y2 y2' ys ys' H2 HF]; [apply Qle_refl|].
  change (simpson_term (x1 - x0) (x2 - x1) y0 y1 y2 + basic_simpson (x2 :: xs) (y2 :: ys)
          <= simpson_term (x1 - x0) (x2 - x1) y0' y1' y2' + basic_simpson (x2 :: xs) (y2' :: ys')).
  pose proof (even_gap _ _ _ _ He) as G0. pose proof (even_gap _ _ _ _ (even_tl _ _ _ _ He)) as G1.
  apply Qplus_le_compat.
  - rewrite (term_even h _ _ y0 y1 y2 Hh G0 G1), (term_even h _ _ y0' y1' y2' Hh G0 G1).
    assert (0 <= h / 3) by (apply Qle_shift_div_l; lra). setoid_rewrite (Qmult_comm (h/3)). apply Qmult_le_compat_r; [lra|assumption].
  - apply (IH (length (x2 :: xs))); [cbn; lia|reflexivity|apply (even_tl h x1), (even_tl h x0), He|constructor; assumption].
Qed.

Lemma basic_const h c : 0 < h -> forall xs ys, even h xs -> length ys = length xs -> Nat.odd (length xs) = true ->
  Forall (fun y => y == c) ys -> basic_simpson xs ys == c * (last xs 0 - hd 0 xs).
Proof.
  intros Hh xs. remember (length xs) as n eqn:Hn. revert xs Hn. induction n as [n IH] using lt_wf_ind. intros xs -> ys He Hl Ho HF.
  destruct xs as [|x0 [|x1 [|x2 xs]]]; [discriminate| |discriminate|].
  - destruct ys as [|y [|]]; try discriminate. cbn. ring.
  - destruct ys as [|y0 [|y1 [|y2 ys]]]; try discriminate.
    change (basic_simpson (x0 :: x1 :: x2 :: xs) (y0 :: y1 :: y2 :: ys)) with
      (simpson_term (x1 - x0) (x2 - x1) y0 y1 y2 + basic_simpson (x2 :: xs) (y2 :: ys)).
    inversion HF as [|? ? F0 HF']; subst. inversion HF' as [|? ? F1 HF'']; subst. inversion HF'' as [|? ? F2 HF3]; subst.
    pose proof (even_gap _ _ _ _ He) as G0. pose proof (even_gap _ _ _ _ (even_tl _ _ _ _ He)) as G1.
    rewrite (term_even h _ _ y0 y1 y2 Hh G0 G1).
    rewrite (IH (length (x2 :: xs))); [|cbn; lia|reflexivity|apply (even_tl h x1), (even_tl h x0), He|cbn in Hl |- *; lia|exact Ho|exact HF''].
    cbn [hd]. replace (last (x0 :: x1 :: x2 :: xs) 0) with (last (x2 :: xs) 0) by reflexivity.
    rewrite F0, F1, F2. setoid_replace x0 with (x2 - h - h) by lra. field.
Qed.

Lemma Forall2_tl {A B} (R : A -> B -> Prop) l l' : Forall2 R l l' -> Forall2 R (tl l) (tl l').
Proof. destruct 1; [constructor|assumption]. Qed.
Lemma Forall2_removelast {A B} (R : A -> B -> Prop) l l' : Forall2 R l l' -> Forall2 R (removelast l) (removelast l').
Proof.
  induction 1 as [|x y l l' H HF IH]; [constructor|]. destruct HF as [|x1 y1 l l' H1 HF]; [constructor|].
  change (removelast (x :: x1 :: l)) with (x :: removelast (x1 :: l)). change (removelast (y :: y1 :: l')) with (y :: removelast (y1 :: l')).
  constructor; assumption.
Qed.
Lemma even_removelast h : forall xs, even h xs -> (2 <= length xs)%nat -> even h (removelast xs).
Proof.
  induction 1 as [x|x y l H He IH]; [cbn; lia|]. intros _. destruct l as [|z l]; [constructor|].
  change (removelast (x :: y :: z :: l)) with (x :: removelast (y :: z :: l)).
  specialize (IH ltac:(cbn; lia)). change (removelast (y :: z :: l)) with (y :: removelast (z :: l)) in *. constructor; assumption.
Qed.
Lemma even_tail h xs : even h xs -> (2 <= length xs)%nat -> even h (tl xs).
Proof. destruct 1; cbn; [lia|auto]. Qed.

Lemma trap_first_mono h : 0 < h -> forall xs ys ys', even h xs -> Forall2 Qle ys ys' -> first_trapezoid xs ys <= first_trapezoid xs ys'.
Proof.
  intros Hh xs ys ys' He HF. destruct xs as [|x0 [|x1 xs]]; try apply Qle_refl.
  destruct HF as [|y0 y0' ys ys' H0 HF]; [apply Qle_refl|]. destruct HF as [|y1 y1' ys ys' H1 HF]; [apply Qle_refl|].
  cbn. pose proof (even_gap _ _ _ _ He) as G. rewrite G. nra.
Qed.
Lemma last_trap_cons x0 x1 x2 xs y0 y1 y2 ys :
  last_trapezoid (x0 :: x1 :: x2 :: xs) (y0 :: y1 :: y2 :: ys) = last_trapezoid (x1 :: x2 :: xs) (y1 :: y2 :: ys).
Proof. reflexivity. Qed.
Lemma trap_last_mono h : 0 < h -> forall xs ys ys', even h xs -> Forall2 Qle ys ys' -> length ys = length xs ->
  last_trapezoid xs ys <= last_trapezoid xs ys'.
Proof.
  intros Hh xs ys ys' He. revert ys ys'. induction He as [x|x y l Hg He IH]; intros ys ys' HF Hl.
  - destruct HF as [|y0 y0' ys ys' H0 HF]; [apply Qle_refl|]. destruct HF; [|discriminate]. apply Qle_refl.
  - destruct HF as [|y0 y0' ys ys' H0 HF]; [discriminate|]. destruct HF as [|y1 y1' ys ys' H1 HF]; [discriminate|].
    destruct l as [|z l].
    + destruct HF; [|discriminate]. cbn. rewrite Hg. nra.
    + destruct HF as [|y2 y2' ys ys' H2 HF]; [discriminate|]. rewrite !last_trap_cons. apply IH; [constructor; [assumption|constructor; assumption]|].
      cbn in Hl |- *. lia.
Qed.

Definition even_rule (xs ys : list Q) : Q :=
  (last_trapezoid xs ys + first_trapezoid xs ys) / 2
  + (basic_simpson (removelast xs) (removelast ys) + basic_simpson (tl xs) (tl ys)) / 2.
Lemma simps_cases ys xs a : simps ys xs = Ok a ->
  ys <> [] /\ a = if Nat.odd (length ys) then basic_simpson xs ys else even_rule xs ys.
Proof.
  unfold simps, even_rule. destruct ys as [|y ys]; [discriminate|]. intros H. split; [discriminate|].
  destruct (Nat.odd (length (y :: ys))); congruence.
Qed.

Lemma simps_mono h : 0 < h -> forall xs ys ys' a a', even h xs -> length ys = length xs -> Forall2 Qle ys ys' ->
  simps ys xs = Ok a -> simps ys' xs = Ok a' -> a <= a'.
Proof.
  intros Hh xs ys ys' a a' He Hl HF Ha Ha'. apply simps_cases in Ha. apply simps_cases in Ha'.
  rewrite <- (Forall2_len _ _ _ HF) in Ha'. destruct Ha as [Hne ->]. destruct Ha' as [_ ->].
  destruct (Nat.odd (length ys)) eqn:Eo.
  - apply (basic_mono h); assumption.
  - assert (Hn : (2 <= length xs)%nat) by (rewrite <- Hl; destruct ys as [|? [|]]; [congruence|discriminate|cbn; lia]).
    pose proof (trap_last_mono h Hh xs _ _ He HF Hl) as T1. pose proof (trap_first_mono h Hh xs _ _ He HF) as T2.
    pose proof (basic_mono h Hh _ _ _ (even_removelast h xs He Hn) (Forall2_removelast _ _ _ HF)) as T3.
    pose proof (basic_mono h Hh _ _ _ (even_tail h xs He Hn) (Forall2_tl _ _ _ HF)) as T4.
    unfold even_rule, Qdiv. change (/ 2) with (1 # 2). lra.
Qed.

Lemma last_trap_const h c : forall xs ys, even h xs -> (2 <= length xs)%nat -> length ys = length xs ->
  Forall (fun y => y == c) ys -> last_trapezoid xs ys == c * h.
Proof.
  intros xs ys He. revert ys. induction He as [x|x y l Hg He IH]; intros ys H2 Hl HF; [cbn in H2; lia|].
  destruct ys as [|y0 [|y1 ys]]; try discriminate. inversion HF as [|? ? F0 HF']; subst. inversion HF' as [|? ? F1 HF'']; subst.
  destruct l as [|z l].
  - destruct ys; [|discriminate]. cbn. rewrite Hg, F0, F1. ring.
  - destruct ys as [|y2 ys]; [discriminate|]. rewrite last_trap_cons. apply IH; [cbn; lia|cbn in Hl |- *; lia|assumption].
Qed.

Lemma even_last h : forall xs, even h xs -> (2 <= length xs)%nat -> last xs 0 == last (removelast xs) 0 + h.
Proof.
  induction 1 as [x|x y l Hg He IH]; [cbn; lia|]. intros _. destruct l as [|z l]; [cbn; lra|].
  change (last (x :: y :: z :: l) 0) with (last (y :: z :: l) 0).
  change (removelast (x :: y :: z :: l)) with (x :: removelast (y :: z :: l)).
  rewrite IH by (cbn; lia). replace (last (x :: removelast (y :: z :: l)) 0) with (last (removelast (y :: z :: l)) 0) by reflexivity. reflexivity.
Qed.

Lemma removelast_length {A} : forall l : list A, length (removelast l) = (length l - 1)%nat.
Proof. induction l as [|x [|y l] IH]; [reflexivity|reflexivity|]. change (removelast (x :: y :: l)) with (x :: removelast (y :: l)). cbn [length] in *. lia. Qed.
Lemma Forall_removelast {A} (P : A -> Prop) : forall l, Forall P l -> Forall P (removelast l).
Proof. induction 1 as [|x [|y l] H HF IH]; [constructor|constructor|]. change (removelast (x :: y :: l)) with (x :: removelast (y :: l)). constructor; assumption. Qed.

Lemma simps_const h c : 0 < h -> forall xs ys a, even h xs -> length ys = length xs -> Forall (fun y => y == c) ys ->
  simps ys xs = Ok a -> a == c * (last xs 0 - hd 0 xs).
Proof.
  intros Hh xs ys a He Hl HF Ha. apply simps_cases in Ha. destruct Ha as [Hne ->]. destruct ys as [|y ys]; [congruence|].
  destruct (Nat.odd (length (y :: ys))) eqn:Eo.
  - apply (basic_const h c Hh); auto. rewrite <- Hl. exact Eo.
  - assert (Hn : (2 <= length xs)%nat) by (rewrite <- Hl; destruct ys; [discriminate|cbn; lia]).
    unfold even_rule.
    rewrite (last_trap_const h c xs (y :: ys) He Hn Hl HF).
    assert (Hodd : Nat.odd (length xs - 1) = true).
    { rewrite <- Hl. cbn [length] in *. rewrite Nat.sub_succ, Nat.sub_0_r. rewrite Nat.odd_succ in Eo. rewrite <- Nat.negb_even. rewrite Eo. reflexivity. }
    rewrite (basic_const h c Hh (removelast xs) (removelast (y :: ys)));
      [|apply even_removelast; assumption|rewrite !removelast_length; lia|rewrite removelast_length; exact Hodd|apply Forall_removelast; exact HF].
    rewrite (basic_const h c Hh (tl xs) (tl (y :: ys)));
      [|apply even_tail; assumption|cbn [tl]; destruct xs; [discriminate|cbn in Hl |- *; lia]|destruct xs; [discriminate|]; cbn [length tl] in *; rewrite Nat.sub_succ, Nat.sub_0_r in Hodd; exact Hodd|inversion HF; assumption].
    rewrite (even_last h xs He Hn).
    destruct xs as [|x0 [|x1 xs]]; [cbn in Hn; lia|cbn in Hn; lia|].
    destruct ys as [|y1 ys]; [discriminate|]. cbn [first_trapezoid hd tl].
    inversion HF as [|? ? F0 HF']; subst. inversion HF' as [|? ? F1 HF'']; subst.
    pose proof (even_gap _ _ _ _ He) as G. pose proof (even_last h _ He Hn) as L.
    replace (last (x0 :: x1 :: xs) 0) with (last (x1 :: xs) 0) in L by reflexivity.
    replace (hd 0 (removelast (x0 :: x1 :: xs))) with x0 by reflexivity.
    rewrite F0, F1, L. set (Z := last (removelast (x0 :: x1 :: xs)) 0). fold Z in L. clearbody Z.
    setoid_replace x1 with (x0 + h) by lra. field.
Qed.

(** *** [arange] *)
Definition grid (start step : Q) (n : nat) : list Q := map (fun i => start + inject_Z (Z.of_nat i) * step) (seq 0 n).

Lemma grid_from start step : forall n i, even step (map (fun i => start + inject_Z (Z.of_nat i) * step) (seq i (S n))).
Proof.
  induction n as [|n IH]; intros i; [constructor|]. cbn [seq map]. constructor; [|exact (IH (S i))].
  rewrite Nat2Z.inj_succ, <- Z.add_1_r, inject_Z_plus. change (inject_Z 1) with 1. ring.
Qed.
Lemma grid_even start step n : even step (grid start step (S n)).
Proof. apply grid_from. Qed.
Lemma grid_last start step n : last (grid start step (S n)) 0 = start + inject_Z (Z.of_nat n) * step.
Proof.
  unfold grid. rewrite seq_S, map_app. cbn [map]. apply last_last.
Qed.
Lemma grid_hd start step n : hd 0 (grid start step (S n)) == start.
Proof. cbn. ring. Qed.

Lemma arange_ok start stop step : 0 < step -> start < stop ->
  exists n, arange start stop step = Ok (grid start step (S n)) /\
    start + inject_Z (Z.of_nat n) * step < stop /\ stop <= start + inject_Z (Z.of_nat n) * step + step.
Proof.
  intros Hs Hlt. unfold arange. destruct (Qeq_bool step 0) eqn:E; [apply Qeq_bool_iff in E; lra|].
  set (q := (stop - start) / step). assert (Hq : 0 < q) by (apply Qlt_shift_div_l; lra).
  assert (Hqs : q * step == stop - start) by (unfold q; field; intros K; lra).
  assert (Hc : (0 < Qceiling q)%Z).
  { destruct (Z_lt_le_dec 0 (Qceiling q)) as [|Hle]; [assumption|]. exfalso. pose proof (Qle_ceiling q) as H.
    assert (inject_Z (Qceiling q) <= 0) by (change 0 with (inject_Z 0); rewrite <- Zle_Qle; lia). lra. }
  exists (Z.to_nat (Qceiling q) - 1)%nat.
  replace (S (Z.to_nat (Qceiling q) - 1)) with (Z.to_nat (Qceiling q)) by lia. split; [reflexivity|].
  replace (Z.of_nat (Z.to_nat (Qceiling q) - 1)) with (Qceiling q - 1)%Z by lia.
  pose proof (Qle_ceiling q) as H1.
  assert (H2 : inject_Z (Qceiling q - 1) < q) by (apply Qceiling_lt).
  assert (E2 : inject_Z (Qceiling q) == inject_Z (Qceiling q - 1) + 1).
  { change 1 with (inject_Z 1). rewrite <- inject_Z_plus. replace (Qceiling q - 1 + 1)%Z with (Qceiling q) by lia. reflexivity. }
  split; nra.
Qed.

Lemma arange_exact start step n : 0 < step ->
  arange start (start + inject_Z (Z.of_nat n) * step + step) step = Ok (grid start step (S n)).
Proof.
  intros Hs. destruct (arange_ok start (start + inject_Z (Z.of_nat n) * step + step) step Hs) as (m & E & H1 & H2).
  - assert (0 <= inject_Z (Z.of_nat n)) by (change 0 with (inject_Z 0); rewrite <- Zle_Qle; lia). nra.
  - rewrite E. do 2 f_equal. f_equal.
    assert (A : inject_Z (Z.of_nat m) < inject_Z (Z.of_nat n + 1)) by (rewrite inject_Z_plus; change (inject_Z 1) with 1; nra).
    assert (B : inject_Z (Z.of_nat n) <= inject_Z (Z.of_nat m)) by nra.
    rewrite <- Zlt_Qlt in A. rewrite <- Zle_Qle in B. lia.
Qed.
Lemma grid_length start step n : length (grid start step n) = n.
Proof. unfold grid. rewrite map_length, seq_length. reflexivity. Qed.

(** *** The rule on any increasing grid *)
Lemma parabola_through x0 x1 x2 y0 y1 y2 : x0 < x1 -> x1 < x2 -> exists a b c,
  y0 == a * x0 * x0 + b * x0 + c /\ y1 == a * x1 * x1 + b * x1 + c /\ y2 == a * x2 * x2 + b * x2 + c /\
  simpson_term (x1 - x0) (x2 - x1) y0 y1 y2 == quad_integral a b c x0 x2.
Proof.
  intros H1 H2. set (d0 := (y1 - y0) / (x1 - x0)). set (d1 := (y2 - y1) / (x2 - x1)). set (a := (d1 - d0) / (x2 - x0)).
  exists a, (d0 - a * (x0 + x1)), (y0 - (d0 - a * (x0 + x1)) * x0 - a * x0 * x0).
  unfold a, d0, d1, simpson_term, quad_integral.
  assert (~ x1 - x0 == 0) by lra. assert (~ x2 - x1 == 0) by lra. assert (~ x2 - x0 == 0) by lra.
  repeat split; field; repeat split; assumption.
Qed.
Lemma increasing_tl x l : increasing (x :: l) -> increasing l.
Proof. inversion 1; [constructor|assumption]. Qed.
Lemma basic_parabolas : forall xs ys, increasing xs -> length ys = length xs -> Nat.odd (length xs) = true ->
  parabolas xs ys (basic_simpson xs ys).
Proof.
  intros xs. induction xs as [| |x0 x1 xs IH _] using pair_ind; intros ys HI HL HO; [discriminate| |].
  - destruct ys as [|y [|]]; try discriminate. constructor. reflexivity.
  - destruct xs as [|x2 xs]; [discriminate|]. destruct ys as [|y0 [|y1 [|y2 ys]]]; try discriminate.
    inversion HI as [| |? ? ? L1 HI1]; subst. inversion HI1 as [| |? ? ? L2 HI2]; subst.
    destruct (parabola_through x0 x1 x2 y0 y1 y2 L1 L2) as (a & b & c & E0 & E1 & E2 & E).
    apply (par_cons x0 x1 x2 xs y0 y1 y2 ys a b c _ (basic_simpson (x2 :: xs) (y2 :: ys))); [assumption..| |].
    { apply IH; [assumption| |exact HO]. injection HL as HL. cbn [length]. congruence. }
    change (basic_simpson (x0 :: x1 :: x2 :: xs) (y0 :: y1 :: y2 :: ys)) with
      (simpson_term (x1 - x0) (x2 - x1) y0 y1 y2 + basic_simpson (x2 :: xs) (y2 :: ys)). rewrite E. reflexivity.
Qed.
Lemma increasing_app l l' : increasing (l ++ l') -> increasing l.
Proof.
  induction l as [|x l IH]; [constructor|]. intros H. destruct l as [|y l]; [constructor|].
  cbn in H. inversion H; subst. constructor; [assumption|]. apply IH. assumption.
Qed.
Lemma last_trapezoid_snoc x0 : forall xm y0 ym xn yn, length xm = length ym ->
  last_trapezoid (x0 :: xm ++ [xn]) (y0 :: ym ++ [yn]) == trapezoid (last (x0 :: xm) 0) xn (last (y0 :: ym) 0) yn.
Proof.
  intros xm. revert x0. induction xm as [|x xm IH]; intros x0 y0 ym xn yn HL; destruct ym as [|y ym]; try discriminate.
  - cbn. unfold trapezoid. field.
  - rewrite <- !app_comm_cons. injection HL as HL. specialize (IH x y ym xn yn HL).
    replace (last (x0 :: x :: xm) 0) with (last (x :: xm) 0) by reflexivity. replace (last (y0 :: y :: ym) 0) with (last (y :: ym) 0) by reflexivity.
    rewrite <- IH. destruct xm as [|x' xm], ym as [|y' ym]; try discriminate; cbn [app]; rewrite ?last_trap_cons; reflexivity.
Qed.
Lemma simps_rule xs ys a : increasing xs -> length ys = length xs -> simps ys xs = Ok a -> area_rule xs ys a.
Proof.
  intros HI HL Ha. apply simps_cases in Ha. destruct Ha as [Hne ->]. destruct (Nat.odd (length ys)) eqn:O.
  - rewrite HL in O. apply area_odd; [exact O|]. apply basic_parabolas; assumption.
  - destruct ys as [|y0 ys]; [congruence|]. destruct xs as [|x0 xs]; [discriminate|].
    destruct ys as [|y1 ys]; [discriminate|]. destruct xs as [|x1 xs]; [discriminate|].
    injection HL as HL. assert (O1 : Nat.odd (length (x1 :: xs)) = true).
    { cbn [length] in O |- *. rewrite HL in O. rewrite Nat.odd_succ, <- Nat.negb_odd in O. apply Bool.negb_false_iff in O. exact O. }
    destruct (@exists_last _ (x1 :: xs) ltac:(discriminate)) as (xm & xn & Ex).
    destruct (@exists_last _ (y1 :: ys) ltac:(discriminate)) as (ym & yn & Ey).
    assert (Lm : length xm = length ym).
    { apply (f_equal (@length Q)) in Ex. apply (f_equal (@length Q)) in Ey. rewrite app_length in Ex, Ey. cbn [length] in Ex, Ey. lia. }
    apply (area_even x0 x1 xm xs xn y0 y1 ym ys yn _ (basic_simpson (x1 :: xs) (y1 :: ys)) (basic_simpson (x0 :: xm) (y0 :: ym))); auto.
    + apply basic_parabolas; [exact (increasing_tl _ _ HI)| |exact O1]. cbn [length]. congruence.
    + apply basic_parabolas.
      * apply (increasing_app _ [xn]). rewrite <- app_comm_cons, <- Ex. exact HI.
      * cbn [length]. congruence.
      * apply (f_equal (@length Q)) in Ex. rewrite app_length, Nat.add_comm in Ex. cbn [length plus] in Ex |- *. rewrite <- Ex. exact O1.
    + unfold even_rule. rewrite Ex, Ey. rewrite last_trapezoid_snoc by exact Lm.
      rewrite <- Ex, <- Ey at 1. cbn [tl first_trapezoid].
      replace (removelast (x0 :: xm ++ [xn])) with (x0 :: xm) by (rewrite app_comm_cons, removelast_last; reflexivity).
      replace (removelast (y0 :: ym ++ [yn])) with (y0 :: ym) by (rewrite app_comm_cons, removelast_last; reflexivity).
      unfold first_trapezoid. rewrite <- Ex, <- Ey. unfold trapezoid. field.
Qed.
Lemma even_increasing h xs : 0 < h -> even h xs -> increasing xs.
Proof. intros Hh. induction 1 as [x|x y l E H IH]; constructor; [lra|exact IH]. Qed.
