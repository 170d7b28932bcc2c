(** C01, C02, C03, C04, C40, C52: argument normalisation (menpofit/checks.py). *)
From Coq Require Import String List ZArith QArith Bool Arith Lia.
From Verif.Model Require Import Py Checks.
From Verif.Spec Require Import Checks.
From Verif.Proofs Require Checks.
Import ListNotations.
Local Open Scope nat_scope.

(** ** C01: one value per scale, or an error: complete input/output specifications. *)
Theorem c01_check_callable : forall v n out, 1 <= n ->
  (check_callable v n = Ok out <-> per_scale seq_of Callable n v out).
Proof. exact Proofs.Checks.check_callable_spec. Qed.
Print Assumptions c01_check_callable.

Example c01_check_callable_ex :
  check_callable (PTuple [PFun 1; PFun 2]) 2 = Ok [PFun 1; PFun 2] /\
  check_callable (PList [PFun 1]) 3 = Ok [PFun 1; PFun 1; PFun 1] /\
  check_callable (PList [PFun 1; PFun 2]) 3 = Err ValueError.
Proof. repeat split. Qed.

(** The documented behaviour of check_multi_scale_param, for any isinstance test [types]. *)
Theorem c01_check_multi_scale_param : forall types (valid : pyval -> Prop) v n out,
  (forall x, types x = true <-> valid x) ->
  (check_multi_scale_param n types v = Ok out <-> per_scale seq_or_str valid n v out).
Proof. exact Proofs.Checks.check_multi_scale_param_spec. Qed.
Print Assumptions c01_check_multi_scale_param.

Example c01_check_multi_scale_param_ex :
  check_multi_scale_param 2 is_int (PList [PInt 3; PInt 4]) = Ok [PInt 3; PInt 4] /\
  check_multi_scale_param 2 is_int (PInt 3) = Ok [PInt 3; PInt 3].
Proof. repeat split. Qed.

Theorem c01_check_max_components : forall v n out, 1 <= n ->
  (check_max_components v n = Ok out <-> per_scale list_or_tuple Component n v out).
Proof. exact Proofs.Checks.check_max_components_spec. Qed.
Print Assumptions c01_check_max_components.

Example c01_check_max_components_ex :
  check_max_components (PList [PNone; PInt 4]) 2 = Ok [PNone; PInt 4] /\
  check_max_components (PFun 1) 2 = Err ValueError.
Proof. repeat split. Qed.

Theorem c01_check_sampling : forall v n out, 1 <= n ->
  (check_sampling v n = Ok out <->
   (v = PNone /\ out = repeat PNone n) \/ per_scale list_or_tuple SamplePattern n v out).
Proof. exact Proofs.Checks.check_sampling_spec. Qed.
Print Assumptions c01_check_sampling.

Example c01_check_sampling_ex :
  check_sampling (PList [PNpInt 4]) 2 = Ok [PNpInt 4; PNpInt 4].
Proof. reflexivity. Qed.

Theorem c01_check_graph : forall ts v n out, 1 <= n ->
  (check_graph v ts n = Ok out <-> per_scale list_only (GraphOk ts) n v out).
Proof. exact Proofs.Checks.check_graph_spec. Qed.
Print Assumptions c01_check_graph.

Example c01_check_graph_ex :
  check_graph (PList [PNone; PObj 7 1]) [6; 7] 2 = Ok [PNone; PObj 7 1] /\
  check_graph (PObj 8 1) [6; 7] 2 = Err ValueError.
Proof. repeat split. Qed.

Theorem c01_check_algorithm_cls : forall base v n out,
  (check_algorithm_cls v n base = Ok out -> length out = n /\ Forall (AlgorithmCls base) out) /\
  (per_scale seq_of (AlgorithmCls base) n v out -> check_algorithm_cls v n base = Ok out) /\
  (forall l, seq_of v l -> length l <> 1 -> length l <> n -> check_algorithm_cls v n base = Err ValueError).
Proof.
  exact (fun base v n out =>
    conj (Proofs.Checks.check_algorithm_cls_sound base v n out)
   (conj (Proofs.Checks.check_algorithm_cls_complete base n v out)
         (Proofs.Checks.check_algorithm_cls_wrong_length base n v))).
Qed.
Print Assumptions c01_check_algorithm_cls.

Example c01_check_algorithm_cls_ex :
  check_algorithm_cls (PList [PClass 3 [3; 1]; PPartial 9 (PClass 4 [4; 1])]) 2 1
  = Ok [PClass 3 [3; 1]; PPartial 9 (PClass 4 [4; 1])].
Proof. reflexivity. Qed.

(** ** C02: patch shapes *)
(** Every accepted value yields patch shapes; there is one per scale unless a one-element list is given. *)
Theorem c02_check_patch_shape_partial : forall v n out,
  check_patch_shape v n = Ok out ->
  Forall PatchShape out /\ ((forall x, ~ seq_of v [x]) \/ n = 1 -> length out = n).
Proof.
  exact (fun v n out E => conj (proj1 (Proofs.Checks.check_patch_shape_sound v n out E))
                               (Proofs.Checks.check_patch_shape_length v n out E)).
Qed.
Print Assumptions c02_check_patch_shape_partial.

Theorem c02_single_patch_shape_repeated : forall v n,
  PatchShape v -> check_patch_shape v n = Ok (repeat v n).
Proof. exact Proofs.Checks.check_ps_pair. Qed.
Print Assumptions c02_single_patch_shape_repeated.

Theorem c02_patch_shape_list_kept : forall v l,
  seq_of v l -> Forall PatchShape l -> l <> [] -> check_patch_shape v (length l) = Ok l.
Proof. exact Proofs.Checks.check_ps_full. Qed.
Print Assumptions c02_patch_shape_list_kept.

Example c02_ex :
  check_patch_shape (PList [PTuple [PInt 17; PInt 17]; PTuple [PInt 9; PInt 9]]) 2
  = Ok [PTuple [PInt 17; PInt 17]; PTuple [PInt 9; PInt 9]] /\
  check_patch_shape (PTuple [PInt 17; PInt 17]) 3 = Ok (repeat (PTuple [PInt 17; PInt 17]) 3).
Proof. repeat split. Qed.

(** Finding: a one-element list of patch shapes is accepted for any number of scales but yields a single
    patch shape (checks.py 229 passes 1 instead of n_scales). *)
Theorem c02_one_element_list_refuted : exists v x n out,
  seq_of v [x] /\ PatchShape x /\ 1 < n /\ check_patch_shape v n = Ok out /\ length out <> n.
Proof.
  exact (ex_intro _ (PList [PTuple [PInt 17; PInt 17]]) (ex_intro _ (PTuple [PInt 17; PInt 17])
        (ex_intro _ 2 (ex_intro _ [PTuple [PInt 17; PInt 17]]
        (conj (seq_list _) (conj
          (ex_intro _ (PInt 17) (ex_intro _ (PInt 17) (conj (int_int 17) (seq_tuple _))))
          (conj (le_n 2) (conj eq_refl (fun H : 1 = 2 => O_S 0 (eq_add_S 0 1 H)))))))))).
Qed.
Print Assumptions c02_one_element_list_refuted.

(** ** C03: scales *)
Theorem c03_exact : forall v out, check_scales v = Ok out <-> scales v out.
Proof. exact Proofs.Checks.check_scales_exact. Qed.
Print Assumptions c03_exact.

(** Anything else raises (TypeError is what [len] raises). *)
Theorem c03_raises : forall v, (forall out, ~ scales v out) ->
  check_scales v = Err ValueError \/ check_scales v = Err TypeError.
Proof. exact Proofs.Checks.check_scales_errors. Qed.
Print Assumptions c03_raises.

Theorem c03_flat_output : forall v out, check_scales v = Ok out ->
  out = leaves v /\ out <> [] /\ Forall Number out.
Proof. exact Proofs.Checks.check_scales_sound. Qed.
Print Assumptions c03_flat_output.

Theorem c03_number : forall v, Number v -> check_scales v = Ok [v].
Proof. exact Proofs.Checks.check_scales_number. Qed.
Print Assumptions c03_number.

Theorem c03_flat_unchanged : forall v l,
  seq_of v l -> l <> [] -> Forall Number l -> check_scales v = Ok l.
Proof. exact Proofs.Checks.check_scales_flat. Qed.
Print Assumptions c03_flat_unchanged.

Theorem c03_idempotent : forall v out, check_scales v = Ok out -> check_scales (PList out) = Ok out.
Proof. exact Proofs.Checks.check_scales_idem. Qed.
Print Assumptions c03_idempotent.

Example c03_ex : check_scales (PTuple [PTuple [PFloat (1#4); PFloat (1#2)]; PInt 1])
               = Ok [PFloat (1#4); PFloat (1#2); PInt 1].
Proof. reflexivity. Qed.

(** Nesting (not documented) is accepted in every position but the last one. *)
Theorem c03_nested_last_raises : exists v, Forall Number (leaves v) /\ leaves v <> [] /\
  check_scales v = Err ValueError.
Proof.
  exact (ex_intro _ (PList [PInt 1; PList [PInt 1; PInt 2]])
        (conj (Forall_cons _ (num_int _ (int_int 1)) (Forall_cons _ (num_int _ (int_int 1))
              (Forall_cons _ (num_int _ (int_int 2)) (Forall_nil _))))
        (conj (fun H => @nil_cons _ _ _ (eq_sym H)) eq_refl))).
Qed.
Print Assumptions c03_nested_last_raises.

(** ** C04: iteration budget *)
Theorem c04_budget_split_partial : forall m n, 1 <= n -> (0 <= m)%Z -> exists k,
  check_max_iters (PInt m) n = Ok (repeat k n) /\ (0 <= k)%Z /\
  (2 * Z.abs (k * Z.of_nat n - m) <= Z.of_nat n)%Z.
Proof. exact Proofs.Checks.check_max_iters_int. Qed.
Print Assumptions c04_budget_split_partial.

Theorem c04_one_per_scale : forall v n out, check_max_iters v n = Ok out -> length out = n.
Proof. exact Proofs.Checks.check_max_iters_length. Qed.
Print Assumptions c04_one_per_scale.

Theorem c04_list_verbatim : forall v zs n,
  seq_of v (map PInt zs) -> length zs = n -> check_max_iters v n = Ok zs.
Proof. exact Proofs.Checks.check_max_iters_list. Qed.
Print Assumptions c04_list_verbatim.

Theorem c04_one_element_list : forall v z n, seq_of v [PInt z] -> 2 <= n ->
  check_max_iters v n = check_max_iters (PInt z) n.
Proof. exact Proofs.Checks.check_max_iters_one. Qed.
Print Assumptions c04_one_element_list.

Theorem c04_wrong_length : forall v l n, seq_of v l -> length l <> 1 -> length l <> n ->
  check_max_iters v n = Err ValueError.
Proof. exact Proofs.Checks.check_max_iters_wrong. Qed.
Print Assumptions c04_wrong_length.

(** The budget is exact when it divides evenly. *)
Theorem c04_exact_when_divisible : forall k n, 1 <= n ->
  check_max_iters (PInt (k * Z.of_nat n)) n = Ok (repeat k n).
Proof. exact Proofs.Checks.check_max_iters_divisible. Qed.
Print Assumptions c04_exact_when_divisible.

Example c04_ex : check_max_iters (PInt 20) 2 = Ok [10; 10]%Z /\
                 check_max_iters (PInt 11) 3 = Ok [4; 4; 4]%Z.
Proof. repeat split. Qed.

(** Findings: the total is not max_iters in general, and a positive budget may give no iteration at all. *)
Theorem c04_total_refuted : exists m n out, 1 <= n /\ (0 < m)%Z /\
  check_max_iters (PInt m) n = Ok out /\ Zsum out <> m.
Proof.
  exact (ex_intro _ 10%Z (ex_intro _ 4 (ex_intro _ [2; 2; 2; 2]%Z
        (conj (proj1 (Nat.leb_le 1 4) eq_refl) (conj eq_refl (conj eq_refl
        (fun H : 8%Z = 10%Z => eq_ind 8%Z (fun z => match z with 10%Z => False | _ => True end) I 10%Z H))))))).
Qed.
Print Assumptions c04_total_refuted.

Theorem c04_no_iteration_refuted : exists m n out, 1 <= n /\ (0 < m)%Z /\
  check_max_iters (PInt m) n = Ok out /\ Forall (eq 0%Z) out.
Proof.
  exact (ex_intro _ 1%Z (ex_intro _ 2 (ex_intro _ [0; 0]%Z
        (conj (le_S _ _ (le_n 1)) (conj eq_refl (conj eq_refl
        (Forall_cons _ eq_refl (Forall_cons _ eq_refl (Forall_nil _)))))))) ).
Qed.
Print Assumptions c04_no_iteration_refuted.

(** ** C40: active components *)
Theorem c40_none_changes_nothing : forall M set models,
  set_models_components M set models PNone = (models, Ok tt).
Proof. exact (fun M set models => eq_refl). Qed.
Print Assumptions c40_none_changes_nothing.

Theorem c40_scalar : forall M set models v out, (exists z, v = PInt z) \/ (exists q, v = PFloat q) ->
  (set_models_components M set models v = (out, Ok tt) <->
   Forall2 (fun m m' => set m v = Ok m') models out).
Proof. exact Proofs.Checks.set_models_scalar. Qed.
Print Assumptions c40_scalar.

Theorem c40_one_element : forall M set models v x out, seq_of v [x] -> 2 <= length models ->
  (set_models_components M set models v = (out, Ok tt) <->
   Forall2 (fun m m' => set m x = Ok m') models out).
Proof. exact Proofs.Checks.set_models_one. Qed.
Print Assumptions c40_one_element.

Theorem c40_one_per_scale : forall M set models v l out, seq_of v l -> length l = length models ->
  (set_models_components M set models v = (out, Ok tt) <->
   Forall2 (fun mv m' => set (fst mv) (snd mv) = Ok m') (combine models l) out).
Proof. exact Proofs.Checks.set_models_list. Qed.
Print Assumptions c40_one_per_scale.

Theorem c40_wrong_length_untouched : forall M set models v l,
  seq_of v l -> length l <> 1 -> length l <> length models ->
  set_models_components M set models v = (models, Err ValueError).
Proof. exact Proofs.Checks.set_models_wrong. Qed.
Print Assumptions c40_wrong_length_untouched.

(** When it raises, no model is lost or reordered: the models before the one whose setter raised have been set, that one and all
    later ones are the same as before; or nothing was changed. *)
Theorem c40_failure : forall M set models v out e, set_models_components M set models v = (out, Err e) ->
  out = models \/
  exists before m after before' x, models = before ++ m :: after /\ out = before' ++ m :: after /\ set m x = Err e /\
    Forall2 (fun mi m' => exists xi, set mi xi = Ok m') before before' /\
    (x = v \/ items v = Ok [x] \/ exists l, items v = Ok l /\ nth_error l (length before) = Some x).
Proof. exact Proofs.Checks.set_models_fails. Qed.
Print Assumptions c40_failure.
Example c40_failure_ex : set_models_components Z (fun m v => match v with PInt z => if Z.ltb m z then Err ValueError else Ok z | _ => Err ValueError end)
   [5; 2; 6]%Z (PInt 3) = ([3; 2; 6]%Z, Err ValueError).
Proof. reflexivity. Qed.

Example c40_ex : set_models_components Z (fun _ v => match v with PInt z => Ok z | _ => Err ValueError end)
   [5; 6]%Z (PList [PInt 3; PInt 4]) = ([3; 4]%Z, Ok tt).
Proof. reflexivity. Qed.

(** ** C52: documented option values *)
(** The documentation offers `int`, `ndarray` or None (also as list entries) as sampling; plain ints and
    lists with a None entry are refused. *)
Theorem c52_sampling_int_refuted : forall z n, check_sampling (PInt z) n = Err ValueError.
Proof. exact (fun z n => eq_refl). Qed.
Print Assumptions c52_sampling_int_refuted.

Theorem c52_sampling_none_entry_refuted : forall l n, In PNone l ->
  check_sampling (PList l) n = Err ValueError.
Proof. exact Proofs.Checks.check_sampling_none_entry. Qed.
Print Assumptions c52_sampling_none_entry_refuted.

(** The documented range (an int > 0 or a float in [0, 1]) is not enforced. *)
Theorem c52_component_range_refuted : forall z n, 1 <= n ->
  check_max_components (PInt z) n = Ok (repeat (PInt z) n).
Proof. exact Proofs.Checks.check_max_components_any_int. Qed.
Print Assumptions c52_component_range_refuted.

(** check_diagonal: accepts None and exactly the numbers >= 20, unchanged. *)
Theorem c52_diagonal : forall d out, check_diagonal d = Ok out <->
  out = d /\ (d = None \/ exists q, d = Some q /\ (20 <= q)%Q).
Proof. exact Proofs.Checks.check_diagonal_spec. Qed.
Print Assumptions c52_diagonal.
