(** What the documentation of the constructors says about options given per scale (C96). *)
From Coq Require Import String List ZArith QArith.
From Verif.Model Require Import Py Options.
From Verif.Spec Require Import Checks.
Import ListNotations.
Local Open Scope nat_scope.
Local Open Scope string_scope.

(** The kinds of options. *)
Inductive kind := Func | Count | Patch | Graph (types : list nat) | Iters.

(** [documented k n v vs]: the value [v] of an option of kind [k] means the values [vs] for [n] scales:
    one value means that value at every scale, a list with one value per scale means these values. *)
Inductive documented : kind -> nat -> pyval -> list pyval -> Prop :=
| doc_func n v vs : per_scale seq_of Callable n v vs -> documented Func n v vs
| doc_count n v vs : per_scale list_or_tuple Component n v vs -> documented Count n v vs
| doc_patch_one n v : PatchShape v -> documented Patch n v (repeat v n)
| doc_patch_all n v l : seq_of v l -> Forall PatchShape l -> length l = n -> documented Patch n v l
| doc_graph n ts v vs : per_scale list_only (GraphOk ts) n v vs -> documented (Graph ts) n v vs
| doc_iters_each n v zs : seq_of v (map PInt zs) -> length zs = n -> documented Iters n v (map PInt zs)
| doc_iters_split n m k : (m = k * Z.of_nat n)%Z -> documented Iters n (PInt m) (repeat (PInt k) n).

(** What may be stored for an option of kind [k]: valid values only. *)
Definition valid (k : kind) (x : pyval) : Prop :=
  match k with
  | Func => Callable x
  | Count => Component x
  | Patch => PatchShape x
  | Graph ts => GraphOk ts x
  | Iters => exists z, x = PInt z
  end.

(** The options that each constructor takes per scale, by documented name, with their kind and the value given. *)
Definition options_of (c : cls) (o : opts) : list (string * (kind * pyval)) :=
  let features := ("holistic_features", (Func, o_features o)) in
  let shape_cls := ("shape_model_cls", (Func, o_shape_cls o)) in
  let max_shape := ("max_shape_components", (Count, o_max_shape o)) in
  let max_app := ("max_appearance_components", (Count, o_max_appearance o)) in
  let patch := ("patch_shape", (Patch, o_patch_shape o)) in
  let context := ("context_shape", (Patch, o_context_shape o)) in
  let norm := ("patch_normalisation", (Func, o_normalisation o)) in
  let ensemble := ("expert_ensemble_cls", (Func, o_ensemble o)) in
  match c with
  | AAM | LinearAAM => [features; shape_cls; max_shape; max_app]
  | MaskedAAM | LinearMaskedAAM => [features; shape_cls; max_shape; max_app; patch]
  | PatchAAM => [features; shape_cls; max_shape; max_app; patch; norm]
  | APS => [features; patch; norm; max_shape; ("n_appearance_components", (Count, o_max_appearance o));
            ("appearance_graph", (Graph [undirected_graph], o_appearance_graph o));
            ("shape_graph", (Graph [undirected_graph], o_shape_graph o));
            ("deformation_graph", (Graph [directed_graph; tree], o_deformation_graph o))]
  | UnifiedAAMCLM => [features; shape_cls; max_shape; max_app; ensemble; patch; context]
  | SupervisedDescentFitter => [features; ("patch_features", (Func, o_patch_features o));
            ("sd_algorithm_cls", (Func, o_sd_cls o)); patch; ("n_iterations", (Iters, o_iterations o))]
  | DlibERT => [("n_iterations", (Iters, o_iterations o))]
  | LucasKanadeFitter => [features]
  | ATM => [features; shape_cls; max_shape]
  | LinearATM => [features; max_shape]
  | MaskedATM | LinearMaskedATM | PatchATM => [features; max_shape; patch]
  | CLM => [features; ensemble; shape_cls; max_shape; patch; context]
  end.

(** The stored value of an option. *)
Definition stored (a : attrs) (name : string) (vs : list pyval) : Prop := In (name, vs) (a_opts a).

(** The diagonal is None or at least 20; training a supervised descent fitter in batches is not offered. *)
Definition legal (c : cls) (o : opts) : Prop :=
  (o_diagonal o = None \/ exists q, o_diagonal o = Some q /\ (20 <= q)%Q) /\
  (c = SupervisedDescentFitter -> o_batch_size o = PNone).

(** Template and constrained local models. *)
Definition takes_len_first (c : cls) : Prop :=
  match c with ATM | MaskedATM | LinearATM | LinearMaskedATM | PatchATM | CLM => True | _ => False end.
