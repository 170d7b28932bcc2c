(** Pixels of padded, cropped and shifted arrays. *)
From Coq Require Import List ZArith Bool Lia Arith.
From Verif.Model Require Import Py PadCrop.
From Verif.Proofs Require Import PadCrop.
Import ListNotations.
Local Open Scope nat_scope.

Section At.
Context {A : Type} (zero : A).
Definition at0 (x : image A) (i j : nat) : A := nth j (nth i (im_rows x) []) zero.

Lemma nth_frame (l : list A) a b k : nth k (repeat zero a ++ l ++ repeat zero b) zero =
  if a <=? k then nth (k - a) l zero else zero.
Proof.
  destruct (Nat.leb_spec a k) as [H|H].
  - rewrite app_nth2 by (rewrite repeat_length; lia). rewrite repeat_length.
    destruct (Nat.lt_ge_cases (k - a) (length l)) as [K|K]; [apply app_nth1; exact K|].
    rewrite app_nth2 by exact K. rewrite nth_repeat. symmetry. apply nth_overflow. exact K.
  - rewrite app_nth1 by (rewrite repeat_length; lia). apply nth_repeat.
Qed.
Lemma nth_blank a n b k : nth k (repeat zero a ++ repeat zero n ++ repeat zero b) zero = zero.
Proof. rewrite nth_frame. destruct (a <=? k); [apply nth_repeat|reflexivity]. Qed.

Lemma at0_pad x h w eh ew p : wf x -> im_h x = h -> im_w x = w -> h <= eh -> w <= ew ->
  pad zero x (Z.of_nat eh, Z.of_nat ew) = Ok p ->
  wf p /\ im_h p = eh /\ im_w p = ew /\
  forall i j, at0 p i j = if ((eh - h + 1) / 2 <=? i) && ((ew - w + 1) / 2 <=? j) then at0 x (i - (eh - h + 1) / 2) (j - (ew - w + 1) / 2) else zero.
Proof.
  intros Hx <- <- H1 H2 Hp.
  destruct (padded_size_ok zero x (Z.of_nat eh, Z.of_nat ew) Hx ltac:(cbn [fst]; lia) ltac:(cbn [snd]; lia) p Hp) as (Wp & Ph & Pw). cbn [fst snd] in Ph, Pw.
  split; [exact Wp|]. split; [lia|]. split; [lia|]. rewrite pad_ok in Hp by (cbn [fst snd]; lia). cbn [fst snd] in Hp.
  destruct (margins (Z.of_nat (im_h x)) (Z.of_nat eh)) as (m & r & D & B & E). destruct (margins (Z.of_nat (im_w x)) (Z.of_nat ew)) as (m' & r' & D' & B' & E').
  rewrite E, E' in Hp. assert (Ep : p = padded zero x (m + r, m)%Z (m' + r', m')%Z) by congruence. clear Hp E E'.
  assert (Ea : Z.to_nat (m + r) = (eh - im_h x + 1) / 2).
  { apply Nat2Z.inj. rewrite Nat2Z.inj_div, Nat2Z.inj_add, Nat2Z.inj_sub by lia. apply (Z.div_unique_pos _ _ _ (1 - r)); lia. }
  assert (Eb : Z.to_nat (m' + r') = (ew - im_w x + 1) / 2).
  { apply Nat2Z.inj. rewrite Nat2Z.inj_div, Nat2Z.inj_add, Nat2Z.inj_sub by lia. apply (Z.div_unique_pos _ _ _ (1 - r')); lia. }
  intros i j. rewrite <- Ea, <- Eb. subst p. unfold at0, padded. cbn [im_rows fst snd].
  set (a := Z.to_nat (m + r)). set (b := Z.to_nat (m' + r')).
  set (blank := repeat zero b ++ repeat zero (im_w x) ++ repeat zero (Z.to_nat m')).
  destruct (Nat.leb_spec a i) as [K|K]; cbn [andb].
  - rewrite app_nth2 by (rewrite repeat_length; lia). rewrite repeat_length.
    destruct (Nat.lt_ge_cases (i - a) (length (im_rows x))) as [L|L].
    + rewrite app_nth1 by (rewrite map_length; exact L).
      rewrite (nth_indep _ [] (repeat zero b ++ [] ++ repeat zero (Z.to_nat m'))) by (rewrite map_length; exact L).
      rewrite (map_nth (fun l => repeat zero b ++ l ++ repeat zero (Z.to_nat m'))). apply nth_frame.
    + rewrite app_nth2 by (rewrite map_length; exact L). rewrite map_length.
      rewrite (nth_overflow (im_rows x)) by exact L. replace (nth (j - b) [] zero) with zero by (destruct (j - b); reflexivity).
      replace (if b <=? j then zero else zero) with zero by (destruct (b <=? j); reflexivity).
      destruct (Nat.lt_ge_cases (i - a - length (im_rows x)) (Z.to_nat m)) as [M|M].
      * rewrite (nth_indep _ [] blank) by (rewrite repeat_length; exact M). rewrite nth_repeat. apply nth_blank.
      * rewrite (nth_overflow (repeat blank _)) by (rewrite repeat_length; exact M). destruct j; reflexivity.
  - rewrite app_nth1 by (rewrite repeat_length; exact K). rewrite (nth_indep _ [] blank) by (rewrite repeat_length; exact K).
    rewrite nth_repeat. apply nth_blank.
Qed.

Lemma nth_skipn {B} (d : B) n : forall l k, nth k (skipn n l) d = nth (n + k) l d.
Proof. induction n as [|n IH]; intros [|x l] k; try reflexivity; cbn [skipn]; [destruct k; reflexivity|]. rewrite IH. reflexivity. Qed.
Lemma nth_firstn {B} (d : B) n : forall l k, k < n -> nth k (firstn n l) d = nth k l d.
Proof. induction n as [|n IH]; intros [|x l] k H; try reflexivity; try lia. destruct k; [reflexivity|]. cbn [firstn nth]. apply IH. lia. Qed.

Lemma slice_at {B} (d : B) (l : list B) n s k : length l = n -> s + 2 <= n -> k < s ->
  nth k (py_slice (fst (crop_bounds (Z.of_nat n) (Z.of_nat s))) (snd (crop_bounds (Z.of_nat n) (Z.of_nat s))) l) d = nth ((n - s + 1) / 2 + k) l d.
Proof.
  intros L H K. destruct (bounds (Z.of_nat n) (Z.of_nat s)) as (m & r & D & Hr & E). rewrite E. cbn [fst snd].
  assert (Ea : Z.to_nat (m + r) = (n - s + 1) / 2).
  { apply Nat2Z.inj. rewrite Nat2Z.inj_div, Nat2Z.inj_add, Nat2Z.inj_sub by lia. apply (Z.div_unique_pos _ _ _ (1 - r)); lia. }
  unfold py_slice, norm_index. rewrite L. assert (E1 : (m + r <? 0)%Z = false) by (apply Z.ltb_ge; lia). assert (E2 : (- m <? 0)%Z = true) by (apply Z.ltb_lt; lia).
  rewrite E1, E2.
  replace (Z.to_nat (Z.max 0 (Z.min (Z.of_nat n) (- m + Z.of_nat n)) - Z.max 0 (Z.min (Z.of_nat n) (m + r)))) with s by lia.
  replace (Z.to_nat (Z.max 0 (Z.min (Z.of_nat n) (m + r)))) with (Z.to_nat (m + r)) by lia.
  rewrite nth_firstn by exact K. rewrite nth_skipn, Ea. reflexivity.
Qed.
Lemma at0_crop x h w sh sw : wf x -> im_h x = h -> im_w x = w -> sh + 2 <= h -> sw + 2 <= w ->
  let c := crop zero x (Z.of_nat sh, Z.of_nat sw) in
  wf c /\ im_h c = sh /\ im_w c = sw /\
  forall i j, i < sh -> j < sw -> at0 c i j = at0 x ((h - sh + 1) / 2 + i) ((w - sw + 1) / 2 + j).
Proof.
  intros Hx <- <- H1 H2 c.
  destruct (crop_size zero x (Z.of_nat sh, Z.of_nat sw) Hx ltac:(cbn [fst]; lia) ltac:(cbn [snd]; lia)) as (W & K1 & K2 & _). cbn [fst snd] in *. fold c in W, K1, K2.
  split; [exact W|]. split; [lia|]. split; [lia|]. intros i j Hi Hj. unfold at0, c, crop. cbn [im_rows fst snd].
  set (R := py_slice _ _ (im_rows x)).
  assert (LR : length R = sh).
  { destruct (crop_length (im_rows x) (Z.of_nat sh) ltac:(lia)) as (Q & _). fold (im_h x) in Q. specialize (Q ltac:(lia)). unfold R. lia. }
  set (sl := py_slice (fst (crop_bounds (Z.of_nat (im_w x)) (Z.of_nat sw))) (snd (crop_bounds (Z.of_nat (im_w x)) (Z.of_nat sw)))).
  rewrite (nth_indep _ [] (sl [])) by (rewrite map_length; lia). rewrite (map_nth sl). unfold R.
  rewrite (slice_at [] (im_rows x) (im_h x) sh i eq_refl H1 Hi). unfold sl. apply slice_at; [|exact H2|exact Hj].
  unfold wf in Hx. rewrite Forall_forall in Hx. apply Hx. apply nth_In. fold (im_h x).
  pose proof (Nat.div_mod (im_h x - sh + 1) 2 ltac:(lia)). pose proof (Nat.mod_upper_bound (im_h x - sh + 1) 2 ltac:(lia)). lia.
Qed.

(** Rotation of a list. *)
Lemma nth_rotate {B} (d : B) n (l : list B) s k : length l = n -> s <= n -> k < n ->
  nth k (skipn s l ++ firstn s l) d = nth ((k + s) mod n) l d.
Proof.
  intros L H K. destruct (Nat.lt_ge_cases k (n - s)) as [C|C].
  - rewrite app_nth1 by (rewrite skipn_length; lia). rewrite nth_skipn, Nat.mod_small by lia. f_equal. lia.
  - rewrite app_nth2 by (rewrite skipn_length; lia). rewrite skipn_length, L.
    assert (E : (k + s) mod n = k - (n - s)).
    { replace (k + s) with ((k - (n - s)) + 1 * n) by lia. rewrite Nat.mod_add by lia. apply Nat.mod_small. lia. }
    rewrite E. apply nth_firstn. lia.
Qed.
End At.

(** Indices on a ring. *)
Lemma wrap_index {A} (zero : A) (F : nat -> A) a h N k0 : a + h <= N -> 0 < N -> (forall k, h <= k -> F k = zero) ->
  (if a <=? (a + k0) mod N then F ((a + k0) mod N - a) else zero) = (if k0 mod N <? h then F (k0 mod N) else zero).
Proof.
  intros H HN Z. pose proof (Nat.mod_upper_bound k0 N ltac:(lia)) as B. rewrite <- Nat.add_mod_idemp_r by lia.
  destruct (Nat.lt_ge_cases (a + k0 mod N) N) as [C|C].
  - rewrite (Nat.mod_small (a + k0 mod N)) by exact C. destruct (Nat.leb_spec a (a + k0 mod N)) as [_|?]; [|lia].
    replace (a + k0 mod N - a) with (k0 mod N) by lia. destruct (Nat.ltb_spec (k0 mod N) h) as [_|L]; [reflexivity|apply Z; exact L].
  - assert (E : (a + k0 mod N) mod N = a + k0 mod N - N).
    { replace (a + k0 mod N) with (a + k0 mod N - N + 1 * N) at 1 by lia. rewrite Nat.mod_add by lia. apply Nat.mod_small. lia. }
    rewrite E. destruct (Nat.leb_spec a (a + k0 mod N - N)) as [?|_]; [lia|].
    destruct (Nat.ltb_spec (k0 mod N) h) as [L|_]; [lia|reflexivity].
Qed.
(** Two ways to go around. *)
Lemma add_index i s u N : u <= N -> 0 < N -> ((i + s) mod N + (N - u)) mod N = (i + s + (N - u)) mod N.
Proof. intros. apply Nat.add_mod_idemp_l. lia. Qed.
Lemma half_ext h f : 1 <= h -> (Z.of_nat h + Z.of_nat f / 2 - 1)%Z = Z.of_nat (h + f / 2 - 1).
Proof. intros H. rewrite Nat2Z.inj_sub by lia. rewrite Nat2Z.inj_add, Nat2Z.inj_div. reflexivity. Qed.
Lemma padded_size_nat p q : 1 <= p -> 1 <= q -> padded_size (Z.of_nat p, Z.of_nat q) = (Z.of_nat (p + p / 2 - 1), Z.of_nat (q + q / 2 - 1)).
Proof.
  intros Hp Hq. unfold padded_size. cbn [fst snd]. rewrite <- !half_ext by assumption.
  assert (E : forall n, (3 * n / 2 = n + n / 2)%Z) by (intros n; replace (3 * n)%Z with (n + n * 2)%Z by lia; rewrite Z.div_add by lia; lia).
  rewrite !E. reflexivity.
Qed.
