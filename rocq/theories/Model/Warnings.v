(** What training warns about, and which models transforms accept. *)
From Coq Require Import List ZArith Bool.
From Verif.Model Require Import Py Base Result.
Import ListNotations.
Local Open Scope nat_scope.

(** The classes that are tested for, with the classes they inherit from (modelinstance.py 71, 283, 426, 586;
    transform/piecewiseaffine.py 6, thinsplatesplines.py; menpo's PointCloud, TriMesh, PiecewiseAffine).  [Meta] is the class of
    the classes themselves (ABCMeta); [Other] stands for any further class, with the classes it inherits from. *)
Inductive cls : Type :=
| PointCloud | TriMesh | PiecewiseAffine | DifferentiablePiecewiseAffine | DifferentiableThinPlateSplines
| ModelInstance | PDM | GlobalPDM | OrthoPDM | Meta
| Other (name : nat) (bases : list cls).
Definition bases (c : cls) : list cls :=
  match c with
  | TriMesh => [PointCloud]
  | DifferentiablePiecewiseAffine => [PiecewiseAffine]
  | PDM => [ModelInstance]
  | GlobalPDM => [PDM]
  | OrthoPDM => [GlobalPDM]
  | Other _ bs => bs
  | _ => []
  end.
Definition tag (c : cls) : nat :=
  match c with
  | PointCloud => 0 | TriMesh => 1 | PiecewiseAffine => 2 | DifferentiablePiecewiseAffine => 3 | DifferentiableThinPlateSplines => 4
  | ModelInstance => 5 | PDM => 6 | GlobalPDM => 7 | OrthoPDM => 8 | Meta => 9 | Other _ _ => 10
  end.
(** issubclass(c, b), for one of the named classes [b]. *)
Fixpoint issubclass (c b : cls) : bool :=
  (tag c =? tag b) ||
  match c with
  | TriMesh => tag b =? 0
  | DifferentiablePiecewiseAffine => tag b =? 2
  | PDM => tag b =? 5
  | GlobalPDM => (tag b =? 6) || (tag b =? 5)
  | OrthoPDM => (tag b =? 7) || (tag b =? 6) || (tag b =? 5)
  | Other _ bs => existsb (fun c' => issubclass c' b) bs
  | _ => false
  end.
(** A value is an object of a class, or a class. *)
Inductive value : Type := Obj (c : cls) | Cls (c : cls).
Definition type_of (v : value) : cls := match v with Obj c => c | Cls _ => Meta end.
Definition isinstance (v : value) (b : cls) : bool := issubclass (type_of v) b.

Inductive warning : Type :=
| NoReferenceShape      (* aam/base.py 191-198, atm/base.py 175-182 *)
| NoTriangulation       (* checks.py 82-85 *)
| DelaunayFrame.        (* builder.py 334-338 *)
(** check_trilist, checks.py 80-85. *)
Definition check_trilist (shape transform : value) : list warning :=
  if negb (isinstance shape TriMesh) && isinstance transform PiecewiseAffine then [NoTriangulation] else [].
(** check_landmark_trilist, checks.py 57-58, of an image whose group holds [shape]; called as check_trilist in what follows. *)
Definition check_landmark_trilist (landmarks : value) (transform : value) : list warning := check_trilist landmarks transform.
(** build_reference_frame, builder.py 333-340: what it warns about. *)
Definition build_reference_frame (landmarks : value) : list warning :=
  if negb (isinstance landmarks TriMesh) then [DelaunayFrame] else [].
(** check_model, checks.py 417-419. *)
Definition check_model (model : value) (c : cls) : res unit := if isinstance model c then Ok tt else Err ValueError.

(** What the first batch warns about before the reference shape is computed: AAM._train, aam/base.py 179-208 (shapes are the
    landmarks of the images), and ATM._train, atm/base.py 162-187. *)
Definition train_warnings (reference_shape : option value) (batch_size : option Z) (shapes : list value) (transform : value)
  : res (list warning) :=
  let? batches := match batch_size with Some n => batch shapes n | None => Ok [shapes] end in
  match batches, reference_shape with
  | b :: _, None =>
      let? first := nth_res b 0 in
      Ok ((match batch_size with Some _ => [NoReferenceShape] | None => [] end) ++ check_landmark_trilist first transform)
  | _, _ => Ok []
  end.
(** UnifiedAAMCLM._train, unified_aam_clm/base.py 204-205. *)
Definition unified_train_warnings (shapes : list value) (transform : value) : res (list warning) :=
  let? first := nth_res shapes 0 in Ok (check_landmark_trilist first transform).

(** The tests of the constructors of model driven transforms (transform/modeldriven.py 39, 326-331, 506-511: every constructor
    calls its parent's) and of UnifiedAlgorithm (unified_aam_clm/algorithm.py 40). *)
Definition model_driven_transform (model : value) : res unit := check_model model PDM.
Definition global_md_transform (model : value) : res unit := let? _ := check_model model GlobalPDM in model_driven_transform model.
Definition ortho_md_transform (model : value) : res unit := let? _ := check_model model OrthoPDM in global_md_transform model.
Definition unified_algorithm (pdm : value) : res unit := check_model pdm OrthoPDM.
