(** Conversions to and from dlib, dlib/conversion.py 7-32, the dlib algorithm, dlib/algorithm.py 75-171, and the flow of the
    boxes through the scales of DlibERT._train, dlib/fitter.py 295-374.  Exact rational coordinates. *)
From Coq Require Import String List ZArith QArith Qcanon Bool.
From Verif.Model Require Import Py Dict Result Perturb.
Import ListNotations.
Local Open Scope nat_scope.

(** A point is (row, column); dlib points are (x, y) = (column, row). *)
Notation point := (Qc * Qc)%type.
Record rect := Rect { left : Z; top : Z; right : Z; bottom : Z }.

(** int(v) of a float: towards zero. *)
Definition py_int (q : Qc) : Z := Z.quot (Qnum q) (Zpos (Qden q)).
Definition of_int (z : Z) : Qc := Q2Qc (inject_Z z).
Definition qcmin (a b : Qc) : Qc := if Qclt_le_dec b a then b else a.
Definition qcmax (a b : Qc) : Qc := if Qclt_le_dec a b then b else a.

(** PointCloud.bounds() of menpo: the minimum and the maximum of each axis; ValueError without points. *)
Definition bounds (pts : list point) : res (point * point) :=
  match pts with
  | [] => Err ValueError
  | p :: r => Ok (fold_left (fun m q => (qcmin (fst m) (fst q), qcmin (snd m) (snd q))) r p,
                  fold_left (fun m q => (qcmax (fst m) (fst q), qcmax (snd m) (snd q))) r p)
  end.
(** menpo's bounding_box(closest, opposite): the four corners. *)
Definition bounding_box (c o : point) : list point := [(fst c, snd c); (fst o, snd c); (fst o, snd o); (fst c, snd o)].
(** PointCloud.bounding_box() *)
Definition box_of (pts : list point) : res (list point) := let? (a, b) := bounds pts in Ok (bounding_box a b).

(** pointcloud_to_dlib_parts, 10-11 *)
Definition to_parts (pts : list point) : list (Z * Z) := map (fun p => (py_int (snd p), py_int (fst p))) pts.
(** dlib_full_object_detection_to_pointcloud, 14-15, with all_parts, 7: np.vstack raises ValueError without parts.  (Recent
    numpy versions refuse the generator given to vstack; the version the project pins accepts it.) *)
Definition from_parts (parts : list (Z * Z)) : res (list point) :=
  match parts with [] => Err ValueError | _ => Ok (map (fun p => (of_int (snd p), of_int (fst p))) parts) end.
(** dlib_rect_to_bounding_box, 18-20 *)
Definition from_rect (r : rect) : list point := bounding_box (of_int (top r), of_int (left r)) (of_int (bottom r), of_int (right r)).
(** pointcloud_to_dlib_rect, 23-26 *)
Definition to_rect (pts : list point) : res rect :=
  let? (a, b) := bounds pts in Ok (Rect (py_int (snd a)) (py_int (fst a)) (py_int (snd b)) (py_int (fst b))).
(** bounding_box_pointcloud_to_dlib_fo_detection, 29-32 *)
Definition to_detection (bbox pts : list point) : res (rect * list (Z * Z)) :=
  let? bb := box_of bbox in let? r := to_rect bb in Ok (r, to_parts pts).

Section Algorithm.
  Context {Px Mod : Type}.
  (** dlib.train_shape_predictor and calling the model it returns. *)
  Variable train_shape_predictor : list Px -> list (list (rect * list (Z * Z))) -> Mod.
  Variable predict : Mod -> Px -> rect -> list (Z * Z).

  (** run, algorithm.py 161-171: the only shape of the result. *)
  Definition dlib_run (m : Mod) (px : Px) (bb : list point) : res (list point) :=
    let? r := to_rect bb in from_parts (predict m px r).

  (** The update of one bounding box, 122-127. *)
  Definition next_box (m : Mod) (px : Px) (r : rect) : res (list point) := let? p := from_parts (predict m px r) in box_of p.
  Definition detections_of (boxes : list (list (list point))) (gts : list (list point)) : res (list (list (rect * list (Z * Z)))) :=
    mapM (fun bg => mapM (fun bb => to_detection bb (snd bg)) (fst bg)) (combine boxes gts).
  (** train, 104-132: the model and the updated boxes.  The boxes are updated in place in the code. *)
  Definition dlib_train (pixels : list Px) (gts : list (list point)) (boxes : list (list (list point))) : res (Mod * list (list (list point))) :=
    let? dets := detections_of boxes gts in
    let m := train_shape_predictor pixels dets in
    let? boxes' := mapM (fun pd => mapM (fun d => next_box m (fst pd) (fst d)) (snd pd)) (combine pixels dets) in
    Ok (m, boxes').
End Algorithm.

(** *** The loop over scales of DlibERT._train, fitter.py 306-374. *)
Definition ert_prefix : string := "__ert_current_bbox_".
Definition ert_key (k : nat) : string := numbered_key ert_prefix k.
Section Ert.
  Context {Sh Px Tr : Type}.
  Notation img := (pimage Sh Px).
  Variable scale_image : nat -> img -> res (img * Tr).   (* scale_images at scale number j, one image *)
  Variable tapply : Tr -> Sh -> Sh.
  Variable train : nat -> list img -> list Sh -> list (list Sh) -> res (list (list Sh)).

  (** 371-374 *)
  Fixpoint ert_attach_from (k : nat) (t : Tr) (boxes : list Sh) (d : dict Sh) : dict Sh :=
    match boxes with
    | [] => d
    | s :: r => ert_attach_from (S k) t r (dict_set (ert_key k) (tapply t s) d)
    end.
  Fixpoint ert_attach (images : list img) (ts : list Tr) (boxes : list (list Sh)) : list img :=
    match images, ts, boxes with
    | im :: images', t :: ts', bs :: boxes' => mkPImage (ppx im) (ert_attach_from 0 t bs (plms im)) :: ert_attach images' ts' boxes'
    | images, _, _ => images
    end.
  (** 346-351 *)
  Definition ert_read (n_perturbations : nat) (im : img) : res (list Sh) :=
    mapM (fun k => dict_at (ert_key k) (plms im)) (seq 0 n_perturbations).
  (** [todo] scales remain; per scale the scaled images, the boxes trained from and the boxes returned; and the images at the
      end.  The in-place change of the boxes that training makes is not copied to the images: only the names with the ert
      prefix are read again, and those are written anew. *)
  Fixpoint ert_loop (n_pert : nat) (group : string) (j todo : nat) (images : list img) : res (list (@scale_trace Sh Px) * list img) :=
    match todo with
    | 0 => Ok ([], images)
    | S todo' =>
        let? scaled := mapM (scale_image j) images in
        let scaled_images := map fst scaled in
        let? current := if j =? 0 then Ok (map generated_bb_func scaled_images) else mapM (ert_read n_pert) scaled_images in
        let? gts := mapM (fun im => dict_at group (plms im)) scaled_images in
        let? boxes := train j scaled_images gts current in
        let images' := if todo' =? 0 then images else ert_attach images (map snd scaled) boxes in
        let? (rest, final) := ert_loop n_pert group (S j) todo' images' in
        Ok ((scaled_images, current, boxes) :: rest, final)
    end.
End Ert.
