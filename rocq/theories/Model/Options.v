(** The option handling at the head of every constructor: which options are checked, against which number of
    scales, and what is stored on the object. Training itself starts after this. *)
From Coq Require Import String List ZArith QArith Bool Arith.
From Verif.Model Require Import Py Checks.
Import ListNotations.
Local Open Scope nat_scope.
Local Open Scope string_scope.

(** The options of a constructor call, as the caller wrote them. Options which are stored without any check
    (reference_shape, transform, verbose, ...) are left out. *)
Record opts := mk_opts {
  o_diagonal : option Q; o_scales : pyval; o_features : pyval; o_shape_cls : pyval;
  o_max_shape : pyval; o_max_appearance : pyval; o_patch_shape : pyval; o_context_shape : pyval;
  o_normalisation : pyval; o_ensemble : pyval; o_sd_cls : pyval; o_patch_features : pyval;
  o_iterations : pyval; o_appearance_graph : pyval; o_shape_graph : pyval; o_deformation_graph : pyval;
  o_batch_size : pyval }.

(** The object after its options were stored: its scales, and the options that hold one value per scale. *)
Record attrs := mk_attrs { a_scales : list pyval; a_opts : list (string * list pyval) }.

(** len(v) of a value the caller gave: TypeError for a number. *)
Definition py_len (v : pyval) : res nat := let? l := items v in Ok (length l).

(** The class OrthoPDM, default value of shape_model_cls (aam/base.py 133, atm/base.py 115). *)
Definition ortho_pdm : pyval := PClass 0 [0].
(** The function no_op, the feature that DlibERT sets (dlib/fitter.py 161). *)
Definition no_op : pyval := PFun 0.
(** Tags of menpo's graph classes: UndirectedGraph, DirectedGraph, Tree. *)
Definition undirected_graph := 1%nat. Definition directed_graph := 2%nat. Definition tree := 3%nat.

(** aam/base.py 139-161 *)
Definition aam_init (o : opts) (self : list (string * list pyval)) : res attrs :=
  let? _ := check_diagonal (o_diagonal o) in
  let? scales := check_scales (o_scales o) in
  let n_scales := length scales in
  let? holistic_features := check_callable (o_features o) n_scales in
  let? shape_model_cls := check_callable (o_shape_cls o) n_scales in
  let? max_shape := check_max_components (o_max_shape o) n_scales in
  let? max_appearance := check_max_components (o_max_appearance o) n_scales in
  Ok (mk_attrs scales (self ++ [("holistic_features", holistic_features); ("shape_model_cls", shape_model_cls);
    ("max_shape_components", max_shape); ("max_appearance_components", max_appearance)])%list).

(** aam/base.py 648-665 (MaskedAAM) and 958-975 (LinearMaskedAAM): the same statements *)
Definition masked_aam_init (o : opts) : res attrs :=
  let? scales := check_scales (o_scales o) in
  let? patch_shape := check_patch_shape (o_patch_shape o) (length scales) in
  aam_init o [("patch_shape", patch_shape)].

(** aam/base.py 784-797: LinearAAM hands everything on *)
Definition linear_aam_init (o : opts) : res attrs := aam_init o [].

(** aam/base.py 1146-1163 *)
Definition patch_aam_init (o : opts) : res attrs :=
  let? scales := check_scales (o_scales o) in
  let n_scales := length scales in
  let? patch_shape := check_patch_shape (o_patch_shape o) n_scales in
  let? patch_normalisation := check_callable (o_normalisation o) n_scales in
  aam_init o [("patch_shape", patch_shape); ("patch_normalisation", patch_normalisation)].

(** atm/base.py 120-138: the number of scales is the length of what the caller wrote *)
Definition atm_init (o : opts) (self : list (string * list pyval)) : res attrs :=
  let? _ := check_diagonal (o_diagonal o) in
  let? n_scales := py_len (o_scales o) in
  let? scales := check_scales (o_scales o) in
  let? holistic_features := check_callable (o_features o) n_scales in
  let? max_shape := check_max_components (o_max_shape o) n_scales in
  let? shape_model_cls := check_callable (o_shape_cls o) n_scales in
  Ok (mk_attrs scales (self ++ [("holistic_features", holistic_features); ("max_shape_components", max_shape);
    ("shape_model_cls", shape_model_cls)])%list).

(** The options with the default shape model class: MaskedATM, LinearATM, LinearMaskedATM and PatchATM do not pass one. *)
Definition default_shape_cls (o : opts) : opts :=
  mk_opts (o_diagonal o) (o_scales o) (o_features o) ortho_pdm (o_max_shape o) (o_max_appearance o) (o_patch_shape o)
    (o_context_shape o) (o_normalisation o) (o_ensemble o) (o_sd_cls o) (o_patch_features o) (o_iterations o)
    (o_appearance_graph o) (o_shape_graph o) (o_deformation_graph o) (o_batch_size o).

(** atm/base.py 539-554 (MaskedATM), 823-838 (LinearMaskedATM), 988-1004 (PatchATM; its patch_normalisation is stored
    unchecked as one callable for all the scales) *)
Definition masked_atm_init (o : opts) : res attrs :=
  let? n_scales := py_len (o_scales o) in
  let? patch_shape := check_patch_shape (o_patch_shape o) n_scales in
  atm_init (default_shape_cls o) [("patch_shape", patch_shape)].

(** atm/base.py 663-675 *)
Definition linear_atm_init (o : opts) : res attrs := atm_init (default_shape_cls o) [].

(** clm/base.py 128-144 *)
Definition clm_init (o : opts) : res attrs :=
  let? scales := check_scales (o_scales o) in
  let? n_scales := py_len (o_scales o) in
  let? _ := check_diagonal (o_diagonal o) in
  let? holistic_features := check_callable (o_features o) n_scales in
  let? ensemble := check_callable (o_ensemble o) n_scales in
  let? shape_model_cls := check_callable (o_shape_cls o) n_scales in
  let? max_shape := check_max_components (o_max_shape o) n_scales in
  let? patch_shape := check_patch_shape (o_patch_shape o) n_scales in
  let? context_shape := check_patch_shape (o_context_shape o) n_scales in
  Ok (mk_attrs scales [("holistic_features", holistic_features); ("expert_ensemble_cls", ensemble);
    ("shape_model_cls", shape_model_cls); ("max_shape_components", max_shape); ("patch_shape", patch_shape);
    ("context_shape", context_shape)]).

(** aps/base.py 155-191 *)
Definition aps_init (o : opts) : res attrs :=
  let? _ := check_diagonal (o_diagonal o) in
  let? scales := check_scales (o_scales o) in
  let n_scales := length scales in
  let? holistic_features := check_callable (o_features o) n_scales in
  let? patch_shape := check_patch_shape (o_patch_shape o) n_scales in
  let? patch_normalisation := check_callable (o_normalisation o) n_scales in
  let? max_shape := check_max_components (o_max_shape o) n_scales in
  let? n_appearance := check_max_components (o_max_appearance o) n_scales in
  let? appearance_graph := check_graph (o_appearance_graph o) [undirected_graph] n_scales in
  let? shape_graph := check_graph (o_shape_graph o) [undirected_graph] n_scales in
  let? deformation_graph := check_graph (o_deformation_graph o) [directed_graph; tree] n_scales in
  Ok (mk_attrs scales [("holistic_features", holistic_features); ("patch_shape", patch_shape);
    ("patch_normalisation", patch_normalisation); ("max_shape_components", max_shape);
    ("n_appearance_components", n_appearance); ("appearance_graph", appearance_graph);
    ("shape_graph", shape_graph); ("deformation_graph", deformation_graph)]).

(** unified_aam_clm/base.py 151-184 *)
Definition unified_init (o : opts) : res attrs :=
  let? _ := check_diagonal (o_diagonal o) in
  let? scales := check_scales (o_scales o) in
  let n_scales := length scales in
  let? holistic_features := check_callable (o_features o) n_scales in
  let? shape_model_cls := check_callable (o_shape_cls o) n_scales in
  let? max_shape := check_max_components (o_max_shape o) n_scales in
  let? max_appearance := check_max_components (o_max_appearance o) n_scales in
  let? ensemble := check_callable (o_ensemble o) n_scales in
  let? patch_shape := check_patch_shape (o_patch_shape o) n_scales in
  let? context_shape := check_patch_shape (o_context_shape o) n_scales in
  Ok (mk_attrs scales [("holistic_features", holistic_features); ("shape_model_cls", shape_model_cls);
    ("max_shape_components", max_shape); ("max_appearance_components", max_appearance);
    ("expert_ensemble_cls", ensemble); ("patch_shape", patch_shape); ("context_shape", context_shape)]).

(** sdm/fitter.py 156-180; the iterations are numpy integers, shown as ints *)
Definition sdm_init (o : opts) : res attrs :=
  let? _ := match o_batch_size o with PNone => Ok tt | _ => Err NotImplementedError end in
  let? _ := check_diagonal (o_diagonal o) in
  let? scales := check_scales (o_scales o) in
  let n_scales := length scales in
  let? patch_features := check_callable (o_patch_features o) n_scales in
  let? sd_algorithm_cls := check_callable (o_sd_cls o) n_scales in
  let? holistic_features := check_callable (o_features o) n_scales in
  let? patch_shape := check_patch_shape (o_patch_shape o) n_scales in
  let? n_iterations := check_max_iters (o_iterations o) n_scales in
  Ok (mk_attrs scales [("patch_features", patch_features); ("sd_algorithm_cls", sd_algorithm_cls);
    ("holistic_features", holistic_features); ("patch_shape", patch_shape);
    ("n_iterations", map PInt n_iterations)]).

(** dlib/fitter.py 157-174 *)
Definition dlib_init (o : opts) : res attrs :=
  let? _ := check_diagonal (o_diagonal o) in
  let? scales := check_scales (o_scales o) in
  let n_scales := length scales in
  let? holistic_features := check_callable no_op n_scales in
  let? n_iterations := check_max_iters (o_iterations o) n_scales in
  Ok (mk_attrs scales [("holistic_features", holistic_features); ("n_iterations", map PInt n_iterations)]).

(** lk/fitter.py 89-110 *)
Definition lk_init (o : opts) : res attrs :=
  let? _ := check_diagonal (o_diagonal o) in
  let? scales := check_scales (o_scales o) in
  let? holistic_features := check_callable (o_features o) (length scales) in
  Ok (mk_attrs scales [("holistic_features", holistic_features)]).

(** The constructors of the library. *)
Inductive cls :=
  AAM | MaskedAAM | LinearAAM | LinearMaskedAAM | PatchAAM | APS | UnifiedAAMCLM | SupervisedDescentFitter | DlibERT
| LucasKanadeFitter | ATM | MaskedATM | LinearATM | LinearMaskedATM | PatchATM | CLM.

Definition construct (c : cls) (o : opts) : res attrs :=
  match c with
  | AAM => aam_init o []
  | MaskedAAM | LinearMaskedAAM => masked_aam_init o
  | LinearAAM => linear_aam_init o
  | PatchAAM => patch_aam_init o
  | APS => aps_init o
  | UnifiedAAMCLM => unified_init o
  | SupervisedDescentFitter => sdm_init o
  | DlibERT => dlib_init o
  | LucasKanadeFitter => lk_init o
  | ATM => atm_init o []
  | MaskedATM | LinearMaskedATM | PatchATM => masked_atm_init o
  | LinearATM => linear_atm_init o
  | CLM => clm_init o
  end.
