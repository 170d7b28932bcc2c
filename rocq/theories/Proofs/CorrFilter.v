From Coq Require Import List Arith Reals Lia Lra.
From Verif.Model Require Import Py CorrFilter.
From Verif.Spec Require Import CorrFilter.
Import ListNotations.
Local Open Scope R_scope.

Lemma pair_eq (a b : R * R) : fst a = fst b -> snd a = snd b -> a = b.
Proof. destruct a, b; cbn; congruence. Qed.

Lemma fold_csum {T} (f : T -> R * R) : forall l s, fold_left (fun s x => cadd s (f x)) l s = cadd s (csum f l).
Proof.
  induction l as [|x l IH]; intros s; cbn [fold_left]; [apply pair_eq; cbn; ring|]. rewrite IH.
  apply pair_eq; unfold csum; cbn [cadd fst snd fold_right]; ring.
Qed.
Lemma csum_app {T} (f : T -> R * R) a b : csum f (a ++ b) = cadd (csum f a) (csum f b).
Proof.
  induction a as [|x a IH]; [apply pair_eq; cbn; ring|]. unfold csum in *. cbn [app fold_right cadd fst snd] in *.
  injection IH as E1 E2. rewrite E1, E2. apply pair_eq; cbn; ring.
Qed.

Section Filters.
  Context {I : Type} (fft : I -> nat -> nat -> R * R) (fft_y : nat -> R * R) (l : R).
  Lemma auto_energy_eq X c w : auto_energy fft X c w = auto_of fft X c w.
  Proof. unfold auto_energy. rewrite (fold_csum (fun x => cmul (conj (fft x c w)) (fft x c w))). apply pair_eq; unfold auto_of, csum; cbn [cadd czero fst snd]; ring_simplify; reflexivity. Qed.
  Lemma cross_energy_eq X c w : cross_energy fft fft_y X c w = cross_of fft fft_y X c w.
  Proof. unfold cross_energy. rewrite (fold_csum (fun x => cmul (conj (fft x c w)) (fft_y w))). apply pair_eq; unfold cross_of, csum; cbn [cadd czero fst snd]; ring_simplify; reflexivity. Qed.
  Lemma auto_blocks_eq X a b w : auto_blocks fft X a b w = auto_blocks_of fft X a b w.
  Proof. unfold auto_blocks. rewrite (fold_csum (fun x => cmul (conj (fft x a w)) (fft x b w))). apply pair_eq; unfold auto_blocks_of, csum; cbn [cadd czero fst snd]; ring_simplify; reflexivity. Qed.

  (** The auto energy is real and not negative. *)
  Lemma auto_real X c w : snd (auto_of fft X c w) = 0 /\ 0 <= fst (auto_of fft X c w).
  Proof.
    unfold auto_of, csum. cbn [fst snd]. induction X as [|x X [IH1 IH2]]; cbn [fold_right]; [lra|]. split.
    - rewrite IH1. unfold times, conjugate. cbn [fst snd]. ring.
    - unfold times, conjugate. cbn [fst snd]. pose proof (pow2_ge_0 (fst (fft x c w))) as H1. pose proof (pow2_ge_0 (snd (fft x c w))) as H2.
      apply Rplus_le_le_0_compat; [|exact IH2]. ring_simplify. lra.
  Qed.

  Lemma cdiv_spec a x y l' : y = 0 -> 0 < x + l' -> times (cdiv a (cadd (x, y) (creal l'))) (x + l', y) = a.
  Proof.
    intros -> H. apply pair_eq; unfold cdiv, cscale, cmul, conj, norm2, cadd, creal, times; cbn [fst snd]; field; lra.
  Qed.
  Lemma mosse_filter_spec sXY sXX : (forall c w, snd (sXX c w) = 0) -> (forall c w, 0 < fst (sXX c w) + l) ->
    is_filter l (mosse_filter l sXY sXX) sXY sXX.
  Proof.
    intros H1 H2 c w. unfold mosse_filter. rewrite (surjective_pairing (sXX c w)). cbn [fst snd]. apply cdiv_spec; [apply H1|apply H2].
  Qed.
  (** The filter is determined by its equation. *)
  Lemma filter_unique g g' xy xx : (forall c w, snd (xx c w) = 0) -> (forall c w, 0 < fst (xx c w) + l) ->
    is_filter l g xy xx -> is_filter l g' xy xx -> forall c w, g c w = g' c w.
  Proof.
    intros H1 H2 Hg Hg' c w. specialize (Hg c w). specialize (Hg' c w). rewrite <- Hg' in Hg. clear Hg'. specialize (H1 c w). specialize (H2 c w).
    unfold times in Hg. cbn [fst snd] in Hg. rewrite H1 in Hg. injection Hg as E1 E2.
    apply pair_eq; apply (Rmult_eq_reg_r (fst (xx c w) + l)); lra.
  Qed.
End Filters.

(** Weighted sums. *)
Lemma wsum_scale t ws vs : wsum (map (Rmult t) ws) vs = cscale t (wsum ws vs).
Proof.
  apply pair_eq; unfold wsum; cbn [cscale fst snd]; revert vs; induction ws as [|a ws IH]; intros [|v vs]; cbn [map combine fold_right fst snd]; try ring; rewrite IH; ring.
Qed.
Lemma wsum_snoc : forall ws vs t v, length ws = length vs -> wsum (ws ++ [t]) (vs ++ [v]) = cadd (wsum ws vs) (cscale t v).
Proof.
  induction ws as [|a ws IH]; intros [|u vs] t v H; try discriminate.
  - apply pair_eq; cbn; ring.
  - cbn [length] in H. assert (E : wsum (ws ++ [t]) (vs ++ [v]) = cadd (wsum ws vs) (cscale t v)) by (apply IH; lia).
    unfold wsum in *. cbn [app combine fold_right cadd cscale fst snd] in *. injection E as E1 E2. rewrite E1, E2. apply pair_eq; cbn; ring.
Qed.

(** *** Histories of increments *)
(** Weights of the batches after the ensemble's increments. *)
Fixpoint hw (n : nat) (ws : list R) (sizes : list nat) : list R :=
  match sizes with
  | [] => ws
  | k :: sizes => let n' := (n + k)%nat in
                  hw n' (map (Rmult (INR n' / (INR n' + INR k))) ws ++ [INR k / (INR n' + INR k)]) sizes
  end.
Definition rtotal (ws : list R) : R := fold_right Rplus 0 ws.
Lemma rtotal_app a b : rtotal (a ++ b) = rtotal a + rtotal b.
Proof. unfold rtotal. induction a as [|x a IH]; cbn [app fold_right]; [ring|rewrite IH; ring]. Qed.
Lemma rtotal_scale t ws : rtotal (map (Rmult t) ws) = t * rtotal ws.
Proof. unfold rtotal. induction ws as [|x a IH]; cbn [map fold_right]; [ring|rewrite IH; ring]. Qed.

Lemma hw_facts : forall sizes n ws, Forall (fun k => 0 < k)%nat sizes -> rtotal ws = 1 -> Forall (fun w => 0 < w) ws ->
  rtotal (hw n ws sizes) = 1 /\ Forall (fun w => 0 < w) (hw n ws sizes) /\ length (hw n ws sizes) = (length ws + length sizes)%nat.
Proof.
  induction sizes as [|k sizes IH]; intros n ws Hs Ht Hp; [cbn; repeat split; try assumption; lia|]. inversion Hs as [|? ? Hk Hs']; subst. cbn [hw].
  assert (K : 0 < INR k) by (apply lt_0_INR; exact Hk). assert (N : 0 <= INR (n + k)) by apply pos_INR.
  assert (N' : 0 < INR (n + k)) by (apply lt_0_INR; lia).
  destruct (IH (n + k)%nat (map (Rmult (INR (n + k) / (INR (n + k) + INR k))) ws ++ [INR k / (INR (n + k) + INR k)]) Hs') as (A1 & A2 & A3).
  - rewrite rtotal_app, rtotal_scale, Ht. unfold rtotal. cbn [fold_right]. field. lra.
  - apply Forall_app. split.
    + apply Forall_forall. intros x Hx. apply in_map_iff in Hx. destruct Hx as (y & <- & Hy). rewrite Forall_forall in Hp.
      apply Rmult_lt_0_compat; [|apply Hp, Hy]. apply Rmult_lt_0_compat; [exact N'|]. apply Rinv_0_lt_compat. lra.
    + constructor; [|constructor]. apply Rmult_lt_0_compat; [exact K|]. apply Rinv_0_lt_compat. lra.
  - split; [exact A1|]. split; [exact A2|]. rewrite A3, app_length, map_length. cbn [length]. lia.
Qed.

Section History.
  Context {I F A B : Type} (cf : list I -> res (F * A * B)) (icf : A -> B -> R -> list I -> res (F * A * B)).
  (** An observed entry of the stored arrays, with the value [S X] summed over images. *)
  Variables (qa : A -> B -> R * R) (Sa : list I -> R * R).
  Hypothesis icf_ok : forall a b n X, 0 < n -> exists fab, icf a b n X = Ok fab /\
    qa (snd (fst fab)) (snd fab) = cadd (cscale (n / (n + INR (length X))) (qa a b)) (cscale (INR (length X) / (n + INR (length X))) (Sa X)).
  Lemma history : forall bs (e : @expert F A B) ws seen,
    Forall (fun b : list I => b <> []) bs -> (0 < n_images e)%nat ->
    length ws = length seen -> qa (ex_a e) (ex_b e) = wsum ws (map Sa seen) ->
    exists e', increments icf e bs = Ok e' /\ n_images e' = (n_images e + list_sum (map (@length I) bs))%nat /\
      qa (ex_a e') (ex_b e') = wsum (hw (n_images e) ws (map (@length I) bs)) (map Sa (seen ++ bs)).
  Proof.
    induction bs as [|b bs IH]; intros e ws seen Hne Hn Hl Hq.
    - exists e. cbn. rewrite app_nil_r. repeat split; [lia|exact Hq].
    - inversion Hne as [|? ? Hb Hne']; subst. cbn [increments].
      destruct (icf_ok (ex_a e) (ex_b e) (INR (n_images e + length b)) b) as (fab & E & Q); [apply lt_0_INR; lia|].
      unfold increment_expert. rewrite E. cbn [bind].
      set (e1 := mk_expert (n_images e + length b) (fst (fst fab)) (snd (fst fab)) (snd fab)).
      set (ws1 := map (Rmult (INR (n_images e + length b) / (INR (n_images e + length b) + INR (length b)))) ws ++ [INR (length b) / (INR (n_images e + length b) + INR (length b))]).
      destruct (IH e1 ws1 (seen ++ [b])) as (e' & E' & N' & Q'); [exact Hne'|cbn; lia| | |].
      + unfold ws1. rewrite !app_length, map_length. cbn [length]. lia.
      + cbn [e1 ex_a ex_b]. rewrite Q. unfold ws1. rewrite map_app. cbn [map]. rewrite wsum_snoc by (rewrite !map_length; exact Hl). rewrite wsum_scale, Hq. reflexivity.
      + exists e'. split; [exact E'|]. cbn [e1 n_images] in N'. split; [rewrite N'; unfold list_sum; cbn [map fold_right]; lia|].
        rewrite Q'. rewrite <- app_assoc. cbn [app map hw n_images e1]. reflexivity.
  Qed.
End History.
