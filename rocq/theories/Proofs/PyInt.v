From Coq Require Import List ZArith Bool Lia.
From Verif.Model Require Import Py PyInt.
From Verif.Spec Require Import PyInt.
Import ListNotations.
Local Open Scope nat_scope.

Lemma is_small n : n <= 256 -> py_nat_is n n = true.
Proof. intros H. unfold py_nat_is, py_int_is. rewrite Z.eqb_refl. cbn [andb]. apply andb_true_iff; split; apply Z.leb_le; lia. Qed.
Lemma is_large n : 257 <= n -> py_nat_is n n = false.
Proof. intros H. unfold py_nat_is, py_int_is. rewrite Z.eqb_refl. cbn [andb]. apply andb_false_iff; right; apply Z.leb_gt; lia. Qed.
Lemma is_differ a b : a <> b -> py_int_is a b = false.
Proof. intros H. unfold py_int_is. replace (Z.eqb a b) with false; [reflexivity|]. symmetry. apply Z.eqb_neq. exact H. Qed.

Section P.
  Context {A : Type}.
  Variables (add mul : A -> A -> A) (opp : A -> A).
  Variable solve : list (list A) -> list A -> res (list A).

  Lemma vop_eq f (x y : list A) : length x = length y -> vop f x y = Ok (zip f x y).
  Proof. intros H. unfold vop. rewrite H, Nat.eqb_refl. reflexivity. Qed.
  Lemma zip_length f (x y : list A) : length x = length y -> length (zip f x y) = length x.
  Proof. intros H. unfold zip. rewrite map_length, combine_length. lia. Qed.
  Lemma add_at_length i d (row : list A) : length (add_at add i d row) = length row.
  Proof. revert i; induction row as [|x row IH]; intros [|i]; cbn; auto. Qed.
  Lemma add_at_nth i d (row : list A) j x : nth_error row j = Some x ->
    nth_error (add_at add i d row) j = Some (if Nat.eqb i j then add x d else x).
  Proof.
    revert i j; induction row as [|y row IH]; intros i j H; [destruct j; discriminate|].
    destruct i as [|i], j as [|j]; cbn in *; try exact H.
    - injection H as ->. reflexivity.
    - apply IH. exact H.
  Qed.
  Lemma add_diag_length : forall H i (v : list A), length (add_diag add i H v) = length H.
  Proof. induction H as [|r H IH]; intros i [|d v]; cbn; auto. Qed.
  Lemma add_diag_nth : forall H k (v : list A) i row, length v = length H -> nth_error H i = Some row ->
    exists d, nth_error v i = Some d /\ nth_error (add_diag add k H v) i = Some (add_at add (k + i) d row).
  Proof.
    induction H as [|r H IH]; intros k v i row L E; [destruct i; discriminate|].
    destruct v as [|d v]; [discriminate|]. destruct i as [|i]; cbn in *.
    - injection E as ->. exists d. rewrite Nat.add_0_r. split; reflexivity.
    - destruct (IH (S k) v i row) as [d' [E1 E2]]; [lia|exact E|]. exists d'. split; [exact E1|]. rewrite E2. do 2 f_equal. lia.
  Qed.
  Lemma iadd_diag_ok H (v : list A) : length v = length H -> exists H', iadd_diag add H v = Ok H' /\ plus_diagonal add H v H'.
  Proof.
    intros L. unfold iadd_diag. rewrite L, Nat.eqb_refl. exists (add_diag add 0 H v). split; [reflexivity|].
    split; [apply add_diag_length|]. intros i row E.
    destruct (add_diag_nth H 0 v i row L E) as [d [E1 E2]]. exists (add_at add (0 + i) d row). split; [exact E2|].
    split; [apply add_at_length|]. intros j x Ej. rewrite (add_at_nth _ _ _ _ _ Ej), E1. reflexivity.
  Qed.
  Lemma iadd_diag_err H (v : list A) : length v <> length H -> length v <> 1 -> iadd_diag add H v = Err ValueError.
  Proof.
    intros L1 L2. unfold iadd_diag. replace (Nat.eqb (length H) (length v)) with false; [|symmetry; apply Nat.eqb_neq; lia].
    destruct v as [|a [|b v]]; [reflexivity|cbn in L2; lia|reflexivity].
  Qed.
  Lemma solve_ok H (Jte w p : list A) : length w = length H -> length p = length H -> length Jte = length H ->
    regularised add mul opp solve H Jte w p
      (let? H := iadd_diag add H w in let? Jp := vop mul w p in let? Je := vop add Jp Jte in
       let? x := solve H Je in Ok (map opp x)).
  Proof.
    intros Lw Lp Lj. destruct (iadd_diag_ok H w Lw) as [H' [E R]]. exists H'. split; [exact R|].
    rewrite E. cbn [bind]. rewrite (vop_eq mul w p) by congruence. cbn [bind].
    rewrite vop_eq by (rewrite zip_length; congruence). cbn [bind]. reflexivity.
  Qed.
  Lemma shape_map_small H (Jte w p : list A) : length w = length H -> length p = length H -> length Jte = length H ->
    length H <= 256 -> regularised add mul opp solve H Jte w p (py_solve_shape_map add mul opp solve H Jte w p).
  Proof.
    intros Lw Lp Lj S. unfold py_solve_shape_map. rewrite Lp, is_small by exact S. apply solve_ok; assumption.
  Qed.
  Lemma shape_map_large H (Jte w p : list A) : length w = length H -> length p = length H -> 257 <= length H ->
    py_solve_shape_map add mul opp solve H Jte w p = Err ValueError.
  Proof.
    intros Lw Lp S. unfold py_solve_shape_map. rewrite Lp, is_large by exact S.
    rewrite iadd_diag_err; [reflexivity|rewrite app_length; lia|rewrite app_length; lia].
  Qed.
  Lemma shape_map_bidirectional H (Jte w p : list A) : length w = length p -> length H = length p + length p ->
    length Jte = length H -> 0 < length p ->
    regularised add mul opp solve H Jte (w ++ w) (p ++ p) (py_solve_shape_map add mul opp solve H Jte w p).
  Proof.
    intros Lw L Lj S. unfold py_solve_shape_map, py_nat_is. rewrite is_differ by lia. apply solve_ok; rewrite ?app_length; lia.
  Qed.
  Lemma all_map_small H (Jte wa c ws p : list A) m n : length wa = m -> length c = m -> length ws = n -> length p = n ->
    length H = m + n -> length Jte = length H -> n <= 256 ->
    exists r, regularised add mul opp solve H Jte (wa ++ ws) (c ++ p) r /\
      py_solve_all_map add mul opp solve H Jte wa c ws p m n = match r with Ok dq => Ok (firstn m dq, skipn m dq) | Err e => Err e end.
  Proof.
    intros L1 L2 L3 L4 LH Lj S. unfold py_solve_all_map.
    replace (Z.of_nat (length H) - Z.of_nat m)%Z with (Z.of_nat n) by lia.
    change (py_int_is (Z.of_nat n) (Z.of_nat n)) with (py_nat_is n n). rewrite is_small by exact S.
    eexists. split; [apply solve_ok; rewrite ?app_length; lia|].
    destruct (iadd_diag add H (wa ++ ws)); cbn [bind]; [|reflexivity].
    destruct (vop mul _ _); cbn [bind]; [|reflexivity].
    destruct (vop add _ _); cbn [bind]; [|reflexivity].
    destruct (solve _ _); reflexivity.
  Qed.
  Lemma all_map_large H (Jte wa c ws p : list A) m n : length wa = m -> length ws = n ->
    length H = m + n -> 257 <= n ->
    py_solve_all_map add mul opp solve H Jte wa c ws p m n = Err ValueError.
  Proof.
    intros L1 L3 LH S. unfold py_solve_all_map.
    replace (Z.of_nat (length H) - Z.of_nat m)%Z with (Z.of_nat n) by lia.
    change (py_int_is (Z.of_nat n) (Z.of_nat n)) with (py_nat_is n n). rewrite is_large by exact S.
    rewrite iadd_diag_err; [reflexivity|rewrite !app_length; lia|rewrite !app_length; lia].
  Qed.
End P.
