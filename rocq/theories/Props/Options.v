(** C96: a constructor stores one value per scale for each of its options. *)
From Coq Require Import String List ZArith QArith Bool Arith Lia.
From Verif.Model Require Import Py Checks Options.
From Verif.Spec Require Import Checks Options.
From Verif.Proofs Require Import Options.
From Verif.Proofs Require Checks.
Import ListNotations.
Local Open Scope nat_scope.

Lemma flat_counted c o ss l : seq_of (o_scales o) l -> check_scales (o_scales o) = Ok ss -> Forall Number l ->
  counted c o ss = Ok (length ss).
Proof.
  intros S E F. assert (N : l <> []).
  { intros ->. destruct (Proofs.Checks.check_scales_sound _ _ E) as (-> & N & _). apply N. inversion S; reflexivity. }
  pose proof (Proofs.Checks.check_scales_flat _ _ S N F) as E'. rewrite E in E'. injection E' as ->.
  assert (L : py_len (o_scales o) = Ok (length l)).
  { unfold py_len. assert (items (o_scales o) = Ok l) as -> by (apply Proofs.Checks.items_spec; constructor; exact S). reflexivity. }
  destruct c; cbn [counted]; first [exact L|reflexivity].
Qed.

Lemma not_flat_counted c o ss : ~ takes_len_first c -> counted c o ss = Ok (length ss).
Proof. intros H. destruct c; first [reflexivity|destruct (H I)]. Qed.

(** Whatever is accepted is stored with one valid value per scale, and the scales are the numbers that were given; for
    template models and constrained local models this holds when the scales are a sequence of numbers.  The exception
    is a one-element list of patch shapes (C02). *)
Theorem c96_stored_partial : forall c o a,
  construct c o = Ok a ->
  (takes_len_first c -> exists l, seq_of (o_scales o) l /\ Forall Number l) ->
  scales (o_scales o) (a_scales a) /\ legal c o /\ NoDup (map fst (a_opts a)) /\
  (forall name k v, In (name, (k, v)) (options_of c o) -> exists vs, stored a name vs /\ Forall (valid k) vs) /\
  ((forall name v, In (name, (Patch, v)) (options_of c o) -> forall x, ~ seq_of v [x]) \/ length (a_scales a) = 1 ->
   forall name vs, stored a name vs -> length vs = length (a_scales a)).
Proof.
  intros c o a H HF. destruct (construct_inv c o a H) as (n & Es & Ec & Hl & Hf & He & ND).
  assert (En : n = length (a_scales a)).
  { destruct c; try (injection Ec as <-; reflexivity);
      destruct (HF I) as (l & S & F); pose proof (flat_counted CLM o _ l S Es F) as X;
      cbn [counted] in Ec, X; rewrite Ec in X; injection X as ->; reflexivity. }
  assert (Hn : 1 <= n).
  { destruct (Proofs.Checks.check_scales_sound _ _ Es) as (_ & N & _). rewrite En. destruct (a_scales a); [now destruct N|cbn; lia]. }
  split; [now apply Proofs.Checks.check_scales_exact|]. split; [exact Hl|]. split; [exact ND|]. split.
  - intros name k v Hin. destruct (Hf name k v Hin) as (vs & C & St). exists vs. split; [exact St|]. apply (check_valid k v n vs Hn C).
  - intros HP name vs St. destruct (He name vs St) as (k & v & C & Hk). rewrite <- En.
    apply (check_valid k v n vs Hn C). intros Ek. destruct HP as [HP|HP]; [right|left; lia]. subst k. apply (HP name v). apply Hk. reflexivity.
Qed.
Print Assumptions c96_stored_partial.

(** Documented values are accepted and mean what the documentation says: one value is used at every scale, a list gives
    one value for each scale. *)
Theorem c96_documented_partial : forall c o ss,
  legal c o ->
  (seq_of (o_scales o) ss /\ ss <> [] /\ Forall Number ss) \/ (~ takes_len_first c /\ Number (o_scales o) /\ ss = [o_scales o]) ->
  (forall name k v, In (name, (k, v)) (options_of c o) -> exists vs, documented k (length ss) v vs) ->
  exists a, construct c o = Ok a /\ a_scales a = ss /\
    forall name k v vs, In (name, (k, v)) (options_of c o) -> documented k (length ss) v vs -> stored a name vs.
Proof.
  intros c o ss Hl Hs Hd.
  assert (Es : check_scales (o_scales o) = Ok ss).
  { destruct Hs as [(S & N & F)|(_ & N & ->)]; [exact (Proofs.Checks.check_scales_flat _ _ S N F)|exact (Proofs.Checks.check_scales_number _ N)]. }
  assert (Ec : counted c o ss = Ok (length ss)).
  { destruct Hs as [(S & N & F)|(N & _)]; [exact (flat_counted c o ss ss S Es F)|exact (not_flat_counted c o ss N)]. }
  assert (Hn : 1 <= length ss).
  { destruct (Proofs.Checks.check_scales_sound _ _ Es) as (_ & N & _). destruct ss; [now destruct N|cbn; lia]. }
  destruct (construct_ok c o ss (length ss) Hl Es Ec) as (a & Ha & Hss).
  { intros name k v Hin. destruct (Hd name k v Hin) as (vs & D). exists vs. exact (check_documented k v _ vs Hn D). }
  exists a. split; [exact Ha|]. split; [exact Hss|]. intros name k v vs Hin D.
  destruct (construct_inv c o a Ha) as (n & _ & Ec' & _ & Hf & _). rewrite Hss, Ec in Ec'. injection Ec' as <-.
  destruct (Hf name k v Hin) as (vs' & C & St). rewrite (check_documented k v _ vs Hn D) in C. injection C as <-. exact St.
Qed.
Print Assumptions c96_documented_partial.

(** A world with three scales in which every constructor accepts its options. *)
Definition w_opts (sc : pyval) : opts :=
  mk_opts (Some 150%Q) sc (PFun 1) (PClass 0 [0]) PNone (PInt 40) (PTuple [PInt 17; PInt 17]) (PTuple [PInt 34; PInt 34])
    (PFun 2) (PClass 5 [5]) (PClass 6 [6]) (PFun 3) (PInt 9) PNone (PObj undirected_graph 1) (PObj tree 4) PNone.
Definition three := PTuple [PFloat (1#4); PFloat (1#2); PInt 1].

Lemma w_documented c sc n : 1 <= n -> n = 3 \/ n = 1 -> forall name k v, In (name, (k, v)) (options_of c (w_opts sc)) ->
  exists vs, documented k n v vs.
Proof.
  intros Hn Hn3 name k v Hin.
  assert (P : forall a, PatchShape (PTuple [PInt a; PInt a])) by (intros a; exists (PInt a), (PInt a); split; constructor).
  destruct c; cbn in Hin; repeat (destruct Hin as [Hin|Hin]; [injection Hin as <- <- <-|]); try destruct Hin;
    first [ eexists; apply doc_func; apply ps_single; constructor
          | eexists; apply doc_count; apply ps_single; first [left; reflexivity|right; constructor; constructor]
          | eexists; apply doc_patch_one; apply P
          | eexists; apply doc_graph; apply ps_single; first [left; reflexivity|right; eexists; eexists; split; [reflexivity|cbn; tauto]]
          | destruct Hn3 as [->| ->]; eexists; [apply (doc_iters_split 3 9 3); reflexivity|apply (doc_iters_split 1 9 9); reflexivity] ].
Qed.

Example c96_documented_ex : forall c, exists a, construct c (w_opts three) = Ok a /\ a_scales a = [PFloat (1#4); PFloat (1#2); PInt 1] /\
  forall name k v vs, In (name, (k, v)) (options_of c (w_opts three)) -> documented k 3 v vs -> stored a name vs.
Proof.
  intros c. apply (c96_documented_partial c (w_opts three) [PFloat (1#4); PFloat (1#2); PInt 1]).
  - split; [right; exists 150%Q; split; [reflexivity|discriminate]|reflexivity].
  - left. split; [constructor|]. split; [discriminate|].
    exact (Forall_cons _ (num_float _) (Forall_cons _ (num_float _) (Forall_cons _ (num_int _ (int_int 1)) (Forall_nil _)))).
  - apply (w_documented c three 3); [lia|now left].
Qed.

(** A single number as the scales: accepted by every other constructor. *)
Example c96_single_scale_ex : forall c, ~ takes_len_first c -> exists a, construct c (w_opts (PFloat (1#2))) = Ok a /\ a_scales a = [PFloat (1#2)].
Proof.
  intros c Hc. destruct (c96_documented_partial c (w_opts (PFloat (1#2))) [PFloat (1#2)]) as (a & Ha & Hs & _).
  - split; [right; exists 150%Q; split; [reflexivity|discriminate]|reflexivity].
  - right. split; [exact Hc|]. split; [apply num_float|reflexivity].
  - apply (w_documented c _ 1); [lia|now right].
  - now exists a.
Qed.

Example c96_stored_ex : exists a, construct CLM (w_opts three) = Ok a /\
  stored a "context_shape" [PTuple [PInt 34; PInt 34]; PTuple [PInt 34; PInt 34]; PTuple [PInt 34; PInt 34]].
Proof. eexists. split; [reflexivity|]. cbn. tauto. Qed.

(** Finding: template models and constrained local models refuse a single number for the scales, although the
    documentation of each of them offers it: the length of the scales is taken before a number is made into a list. *)
Theorem c96_single_scale_refuted : forall c o, takes_len_first c -> legal c o -> Number (o_scales o) ->
  construct c o = Err TypeError.
Proof.
  intros c o Hc [HD _] HN.
  assert (Ed : check_diagonal (o_diagonal o) = Ok (o_diagonal o)) by (apply Proofs.Checks.check_diagonal_spec; tauto).
  assert (El : py_len (o_scales o) = Err TypeError) by (destruct HN as [v []|]; reflexivity).
  pose proof (Proofs.Checks.check_scales_number _ HN) as Es.
  destruct c; try destruct Hc; cbn [construct];
    unfold masked_atm_init, linear_atm_init, atm_init, clm_init; cbn [default_shape_cls o_diagonal o_scales];
    try rewrite Es; cbn [bind]; try rewrite Ed; cbn [bind]; rewrite El; reflexivity.
Qed.
Print Assumptions c96_single_scale_refuted.
Example c96_single_scale_refuted_ex : legal CLM (w_opts (PFloat (1#2))) /\ construct CLM (w_opts (PFloat (1#2))) = Err TypeError.
Proof. split; [split; [right; exists 150%Q; split; [reflexivity|discriminate]|reflexivity]|reflexivity]. Qed.

(** Finding: they accept nested scales, which are flattened, but then hold fewer option values than scales. *)
Theorem c96_nested_refuted : forall c, takes_len_first c -> exists o a name vs,
  construct c o = Ok a /\ stored a name vs /\ length vs < length (a_scales a).
Proof.
  intros c Hc. exists (w_opts (PTuple [PTuple [PFloat (1#4); PFloat (1#2)]; PInt 1])).
  destruct c; try destruct Hc; do 3 eexists; (split; [reflexivity|]); (split; [left; reflexivity|]); cbn; lia.
Qed.
Print Assumptions c96_nested_refuted.

(** Finding: the documented default of sd_algorithm_cls (None) is refused whatever the other options are. *)
Theorem c96_default_sd_refuted : forall o a, o_sd_cls o = PNone -> construct SupervisedDescentFitter o <> Ok a.
Proof.
  intros o a Ho H. destruct (construct_inv _ _ _ H) as (n & _ & _ & _ & Hf & _).
  destruct (Hf "sd_algorithm_cls"%string Func (o_sd_cls o)) as (vs & C & _); [cbn; tauto|]. rewrite Ho in C. discriminate C.
Qed.
Print Assumptions c96_default_sd_refuted.
Example c96_default_sd_ex : construct SupervisedDescentFitter (mk_opts None three (PFun 1) (PClass 0 [0]) PNone PNone (PTuple [PInt 17; PInt 17])
   (PTuple [PInt 34; PInt 34]) (PFun 2) (PClass 5 [5]) PNone (PFun 3) (PInt 3) PNone PNone PNone PNone) = Err TypeError.
Proof. reflexivity. Qed.
