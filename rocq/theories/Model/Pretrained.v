(** Where pretrained fitters live: menpofit/io.py 277-344, and several of them loaded in one installation. *)
From Coq Require Import String List Arith Bool.
From Verif.Model Require Import Py Dict Result Perturb Io.
Import ListNotations.
Local Open Scope string_scope.

(** A fitter as it is asked for: its name, MENPOFIT_BINARY_VERSION (20) of the installed menpofit and the major version of
    Python.  Simplification: the binary version is a natural number, as it is in the code. *)
Record fitter_id := mk_id { id_name : string; id_version : nat; id_python : nat }.
(** filename_for_fitter, 292-308: '{}_v{}_py{}.pkl'. *)
Definition filename_for_fitter (f : fitter_id) : string :=
  id_name f ++ "_v" ++ show_nat (id_version f) ++ "_py" ++ show_nat (id_python f) ++ ".pkl".
(** url_of_fitter, 311-327, with MENPO_URL (15). *)
Definition url_of_fitter (f : fitter_id) : string := "http://static.menpo.org" ++ "/menpofit/" ++ filename_for_fitter f.
(** path_of_fitter, 330-344.  Simplification: paths are strings; names with directory separators, which may denote the same
    file in several ways, are outside the model, and the data directory exists (277-289 create it). *)
Definition path_of_fitter (data_dir : string) (f : fitter_id) : string := data_dir ++ "/" ++ filename_for_fitter f.

Section Disk.
  Context {B Fit : Type}.
  Variable data_dir : string.
  (** All files: what is at a path. *)
  Definition disk := string -> option (list B).
  Definition set_file (p : string) (c : option (list B)) (d : disk) : disk := fun q => if String.eqb p q then c else d q.
  (** load_fitter, 394-424, on a disk with many files: [load_fitter] of Model/Io on the file at the path. *)
  Definition load_named (f : fitter_id) (env : environment B Fit) (d : disk) : disk * outcome Fit :=
    let p := path_of_fitter data_dir f in
    let (c, o) := load_fitter env (d p) in (set_file p c d, o).
  (** A history of loads of any fitters by any installations that share the directory. *)
  Fixpoint load_all (calls : list (fitter_id * environment B Fit)) (d : disk) : disk * list (outcome Fit) :=
    match calls with
    | [] => (d, [])
    | (f, env) :: calls => let (d, o) := load_named f env d in
                           let (d, os) := load_all calls d in (d, o :: os)
    end.
End Disk.

(** load_balanced_frontal_face_fitter, aam/pretrained.py 4-51. *)
Definition balanced_frontal_face (version python : nat) : fitter_id := mk_id "balanced_frontal_face_aam" version python.
