(** What training does to the image objects it is given.  Images are mutable objects shared with the caller; here they
    live in a heap, code that builds a new image allocates one, and [im.landmarks[k] = s] and [del im.landmarks[k]]
    change the heap at once, so that an exception leaves behind what was written before it. *)
From Coq Require Import String List Arith Bool.
From Verif.Model Require Import Py Dict Result Perturb.
Import ListNotations.
Local Open Scope nat_scope.

Section Heap.
  Context {Sh Px : Type}.
  Notation img := (pimage Sh Px).
  Definition heap := list img.
  (** A computation on the heap: the heap afterwards, and the value or the exception. *)
  Definition M (A : Type) := heap -> heap * res A.
  Definition ret {A} (x : A) : M A := fun h => (h, Ok x).
  Definition lift {A} (r : res A) : M A := fun h => (h, r).
  Definition bindM {A B} (m : M A) (f : A -> M B) : M B :=
    fun h => match m h with
             | (h', Ok x) => f x h'
             | (h', Err e) => (h', Err e)
             end.
  (** Reading an object.  Addresses that the model follows are always allocated; the error is never raised. *)
  Definition read (a : nat) : M img := fun h => (h, match nth_error h a with Some im => Ok im | None => Err IndexError end).
  Fixpoint replace (a : nat) (im : img) (h : heap) : heap :=
    match a, h with
    | _, [] => []
    | 0, _ :: r => im :: r
    | S a', x :: r => x :: replace a' im r
    end.
  Definition write (a : nat) (im : img) : M unit := fun h => (replace a im h, Ok tt).
  Definition alloc (im : img) : M nat := fun h => (h ++ [im], Ok (length h)).
  Fixpoint each {A B} (f : A -> M B) (l : list A) : M (list B) :=
    match l with
    | [] => ret []
    | x :: r => bindM (f x) (fun y => bindM (each f r) (fun ys => ret (y :: ys)))
    end.
End Heap.
Arguments heap : clear implicits.
Arguments M : clear implicits.

Notation "'let!' x := a 'in' b" := (bindM a (fun x => b))
  (at level 200, x pattern, a at level 100, b at level 200, right associativity).

Section Training.
  Context {Sh Px Tr : Type}.
  Notation img := (pimage Sh Px).
  Notation M := (M Sh Px).
  Variable bounding_box : Sh -> Sh.                       (* PointCloud.bounding_box() *)
  Variable constrain : Px -> Sh -> Sh.                    (* shape.constrain_to_bounds(im.bounds()) *)
  Variable perturb_func : nat -> Sh -> Sh -> res Sh.      (* the n-th call of the user's function *)
  Variable matches : string -> bool.                      (* fnmatch of a group name against the user's glob *)
  Variable mean_ref : list Sh -> res Sh.                  (* compute_reference_shape *)
  Variable rescale_to : option string -> Sh -> img -> res img. (* image.rescale_to_pointcloud(reference, group): a new image *)
  Variable feature : nat -> img -> res (option img).      (* a feature function: a new image, or None for its argument itself *)
  Variable is_one : nat -> bool.                          (* scale number j is 1 *)
  Variable rescale : nat -> img -> res (img * Tr).        (* image.rescale(scale j): a new image *)
  Variable identity : Tr.
  Variable tapply : Tr -> Sh -> Sh.
  Variable align : Sh -> Sh -> res Sh.                    (* align_shape_with_bounding_box(reference, box) *)
  (** algorithms[j].train: reads the images. *)
  Variable train : nat -> list img -> list Sh -> list (list Sh) -> res (list (list Sh)).

  (** image.landmarks[group] of menpo: None stands for the only group *)
  Definition landmark (group : option string) (d : dict Sh) : res Sh :=
    match group with
    | Some k => dict_at k d
    | None => match d with [(_, s)] => Ok s | _ => Err ValueError end
    end.
  Definition get_lm (group : option string) (a : nat) : M Sh := let! im := read a in lift (landmark group (plms im)).
  (** im.landmarks[k] = s *)
  Definition set_lm (a : nat) (k : string) (s : Sh) : M unit :=
    let! im := read a in write a (mkPImage (ppx im) (dict_set k s (plms im))).
  (** del im.landmarks[k] *)
  Definition del_lm (a : nat) (k : string) : M unit :=
    let! im := read a in let! d := lift (dict_del k (plms im)) in write a (mkPImage (ppx im) d).

  (** builder.py 87-90 *)
  Definition rescale_images_to_reference_shape (group : option string) (reference : Sh) (images : list nat) : M (list nat) :=
    each (fun a => let! im := read a in let! im' := lift (rescale_to group reference im) in alloc im') images.

  (** builder.py 164 *)
  Definition compute_features (f : nat) (images : list nat) : M (list nat) :=
    each (fun a => let! im := read a in
                   let! r := lift (feature f im) in
                   match r with None => ret a | Some im' => alloc im' end) images.

  (** builder.py 200-223, with return_transforms *)
  Definition scale_images (j : nat) (images : list nat) : M (list (nat * Tr)) :=
    if is_one j then ret (map (fun a => (a, identity)) images)
    else each (fun a => let! im := read a in
                        let! (im', t) := lift (rescale j im) in
                        let! a' := alloc im' in ret (a', t)) images.

  (** fitter.py 777-781 *)
  Fixpoint perturb_loop (n : nat) (a : nat) (gt_s bb : Sh) (c k : nat) : M (nat * nat) :=
    match n with
    | 0 => ret (c, k)
    | S n' =>
        let! s := lift (perturb_func c gt_s bb) in
        let! im := read a in
        let! _ := set_lm a (numbered_key bb_prefix k) (constrain (ppx im) (bounding_box s)) in
        perturb_loop n' a gt_s bb (S c) (S k)
    end.
  (** fitter.py 776-786 *)
  Fixpoint box_loop (n : nat) (glob : bool) (a : nat) (gt_s : Sh) (bbs : list Sh) (c k : nat) : M nat :=
    match bbs with
    | [] => ret c
    | bb :: bbs' =>
        let! (c', k') := perturb_loop n a gt_s bb c k in
        if glob then
          let! im := read a in
          let! _ := set_lm a (numbered_key bb_prefix k') (constrain (ppx im) bb) in
          box_loop n glob a gt_s bbs' c' (S k')
        else box_loop n glob a gt_s bbs' c' k'
    end.
  (** fitter.py 771-786 *)
  Fixpoint image_loop (n : nat) (glob : bool) (gt_group : string) (images : list nat) (c : nat) : M unit :=
    match images with
    | [] => ret tt
    | a :: rest =>
        let! gt := get_lm (Some gt_group) a in
        let! im := read a in
        let gt_s := bounding_box gt in
        let! c' := box_loop n glob a gt_s (if glob then bb_glob bounding_box matches (plms im) else [gt_s]) c 0 in
        image_loop n glob gt_group rest c'
    end.
  (** fitter.py 745-786 *)
  Definition generate_perturbations (images : list nat) (n : nat) (gt_group : string) (glob : bool) : M unit :=
    let! n_bbs := if glob then
                    let! a := lift (nth_res images 0) in
                    let! im := read a in ret (length (bb_glob bounding_box matches (plms im)))
                  else ret 1 in
    if n_bbs =? 0 then lift (Err ValueError) else image_loop n glob gt_group images 0.

  (** Attaching estimates, sdm/fitter.py 347-351 and 356-360, dlib/fitter.py 371-374 *)
  Fixpoint attach_shapes (prefix : string) (a : nat) (t : Tr) (k : nat) (shapes : list Sh) : M unit :=
    match shapes with
    | [] => ret tt
    | s :: r => let! _ := set_lm a (numbered_key prefix k) (tapply t s) in attach_shapes prefix a t (S k) r
    end.
  Fixpoint attach (prefix : string) (images : list nat) (ts : list Tr) (shapes : list (list Sh)) : M unit :=
    match images, ts, shapes with
    | a :: images', t :: ts', ss :: shapes' =>
        let! _ := attach_shapes prefix a t 0 ss in attach prefix images' ts' shapes'
    | _, _, _ => ret tt
    end.

  (** Reading the estimates again, sdm/fitter.py 321-326, dlib/fitter.py 346-351 *)
  Definition read_shapes (prefix : string) (n : nat) (a : nat) : M (list Sh) :=
    each (fun k => get_lm (Some (numbered_key prefix k)) a) (seq 0 n).

  (** sdm/fitter.py 364-368 *)
  Definition clean (n : nat) (batch : list nat) : M unit :=
    let! a := lift (nth_res batch 0) in
    let! im := read a in
    match dict_get (numbered_key sdm_prefix 0) (plms im) with
    | Some _ => let! _ := each (fun b => each (fun k => del_lm b (numbered_key sdm_prefix k)) (seq 0 n)) batch in ret tt
    | None => ret tt
    end.

  (** Choice of the feature images, sdm/fitter.py 270-281; aam/base.py 256-270, clm/base.py 246-260, aps/base.py 280-294,
      unified_aam_clm/base.py 233-247; features are numbered, no_op is number 0.  For atm/base.py 235-244 there is no
      special case for no_op ([shortcut] is false). *)
  Definition feature_images (shortcut : bool) (j f prev : nat) (batch fimgs : list nat) : M (list nat) :=
    if shortcut && (j =? 0) && (f =? 0) then ret batch
    else if (j =? 0) || negb (f =? prev) then compute_features f batch
    else ret fimgs.

  (** sdm/fitter.py 257-368; [fs] are the features of the remaining scales *)
  Fixpoint sdm_scales (n_pert : nat) (group : string) (reference : Sh) (j : nat) (fs : list nat) (prev : nat) (batch fimgs : list nat) : M unit :=
    match fs with
    | [] => ret tt
    | f :: fs' =>
        let! fimgs' := feature_images true j f prev batch fimgs in
        let! scaled := scale_images j fimgs' in
        let scaled_images := map fst scaled in
        let! scaled_shapes := each (get_lm (Some group)) scaled_images in
        let! current := if j =? 0 then
            each (fun a => let! im := read a in lift (mapM (align reference) (generated_bb_func im))) scaled_images
          else each (read_shapes sdm_prefix n_pert) scaled_images in
        let! ims := each read scaled_images in
        let! estimates := lift (train j ims scaled_shapes current) in
        let! _ := match fs' with
                  | f' :: _ => attach sdm_prefix (if f' =? f then fimgs' else batch) (map snd scaled) estimates
                  | [] => clean n_pert batch
                  end in
        sdm_scales n_pert group reference (S j) fs' f batch fimgs'
    end.

  (** sdm/fitter.py 196-239 and 241-254 without batches (a batch size is refused, 156-158) *)
  Definition sdm_train (n_pert : nat) (reference : option Sh) (glob : bool) (group : option string) (fs : list nat) (images : list nat) : M unit :=
    let! ref := match reference with
                | Some s => ret s
                | None => let! shapes := each (get_lm group) images in lift (mean_ref shapes)
                end in
    let! g := match group with
              | Some g => ret g
              | None => let! a := lift (nth_res images 0) in
                        let! im := read a in
                        let! kv := lift (nth_res (plms im) 0) in ret (fst kv)
              end in
    let! batch := rescale_images_to_reference_shape (Some g) ref images in
    let! _ := generate_perturbations batch n_pert g glob in
    sdm_scales n_pert g ref 0 fs 0 batch [].

  (** The loop over scales of the other models: aam/base.py 246-334, clm/base.py 236-308, aps/base.py 270-373,
      unified_aam_clm/base.py 223-308.  What the models learn from the scaled images and their shapes is [learn]; it reads
      the images (warping and patch extraction build new ones). *)
  Variable learn : nat -> list img -> list Sh -> res unit.
  Fixpoint model_scales (group : option string) (j : nat) (fs : list nat) (prev : nat) (batch fimgs : list nat) : M unit :=
    match fs with
    | [] => ret tt
    | f :: fs' =>
        let! fimgs' := feature_images true j f prev batch fimgs in
        let! scaled := scale_images j fimgs' in
        let scaled_images := map fst scaled in
        let! shapes := each (get_lm group) scaled_images in
        let! ims := each read scaled_images in
        let! _ := lift (learn j ims shapes) in
        model_scales group (S j) fs' f batch fimgs'
    end.
  (** aam/base.py 226-246 and their like: one batch *)
  Definition model_train_batch (group : option string) (reference : Sh) (fs : list nat) (images : list nat) : M unit :=
    let! batch := rescale_images_to_reference_shape group reference images in
    model_scales group 0 fs 0 batch [].
  (** aam/base.py 186-224, clm/base.py 182-216, aps/base.py 215-245 (and unified_aam_clm/base.py 204-213 with one batch): the
      constructor with [reference = None] or the caller's, [increment] with the model's. *)
  Definition model_train (group : option string) (reference : option Sh) (fs : list nat) (batches : list (list nat)) : M unit :=
    match batches with
    | [] => ret tt
    | b0 :: _ =>
        let! ref := match reference with
                    | Some s => ret s
                    | None => let! shapes := each (get_lm group) b0 in lift (mean_ref shapes)
                    end in
        let! _ := each (model_train_batch group ref fs) batches in ret tt
    end.

  (** ATM: atm/base.py 225-288 *)
  Variable learn_template : nat -> list img -> list Sh -> res unit.
  Fixpoint atm_scales (shapes : list Sh) (j : nat) (fs : list nat) (prev : nat) (template : nat) (fimgs : list nat) : M unit :=
    match fs with
    | [] => ret tt
    | f :: fs' =>
        let! fimgs' := feature_images false j f prev [template] fimgs in
        let! scaled := scale_images j fimgs' in
        let! ims := each read (map fst scaled) in
        let! _ := lift (learn_template j ims shapes) in
        atm_scales shapes (S j) fs' f template fimgs'
    end.
  (** atm/base.py 168-208 *)
  Definition atm_train (group : option string) (reference : option Sh) (fs : list nat) (template : nat) (batches : list (list Sh)) : M unit :=
    match batches with
    | [] => ret tt
    | b0 :: _ =>
        let! ref := match reference with Some s => ret s | None => lift (mean_ref b0) end in
        let! im := read template in
        let! im' := lift (rescale_to group ref im) in
        let! t := alloc im' in
        let! _ := each (fun b => atm_scales b 0 fs 0 t []) batches in ret tt
    end.

  (** dlib/fitter.py 307-374 *)
  Definition ert_prefix : string := "__ert_current_bbox_".
  Fixpoint dlib_scales (n_pert : nat) (group : string) (n_scales : nat) (j : nat) (batch : list nat) : M unit :=
    match n_scales with
    | 0 => ret tt
    | S n' =>
        let! scaled := scale_images j batch in
        let scaled_images := map fst scaled in
        let! boxes := if j =? 0 then each (fun a => let! im := read a in ret (generated_bb_func im)) scaled_images
                      else each (read_shapes ert_prefix n_pert) scaled_images in
        let! shapes := each (get_lm (Some group)) scaled_images in
        let! ims := each read scaled_images in
        let! estimates := lift (train j ims shapes boxes) in
        let! _ := match n' with 0 => ret tt | S _ => attach ert_prefix batch (map snd scaled) estimates end in
        dlib_scales n_pert group n' (S j) batch
    end.

  Definition gt_bb : string := "__gt_bb".
  (** dlib/fitter.py 291-293 *)
  Fixpoint dlib_unmark (pairs : list (nat * nat)) : M unit :=
    match pairs with
    | [] => ret tt
    | (i, i2) :: r => let! _ := del_lm i gt_bb in let! _ := del_lm i2 gt_bb in dlib_unmark r
    end.
  (** dlib/fitter.py 273-274 *)
  Fixpoint dlib_mark (group : string) (images : list nat) : M unit :=
    match images with
    | [] => ret tt
    | a :: r => let! s := get_lm (Some group) a in let! _ := set_lm a gt_bb (bounding_box s) in dlib_mark group r
    end.
  (** dlib/fitter.py 272-293: after the temporary groups were added *)
  Definition dlib_prepare (reference : option Sh) (images : list nat) : M (list nat) :=
    let! ref := match reference with
                | Some s => ret s
                | None => let! boxes := each (get_lm (Some gt_bb)) images in lift (mean_ref boxes)
                end in
    rescale_images_to_reference_shape (Some gt_bb) ref images.
  (** dlib/fitter.py 261-374 *)
  Definition dlib_train (n_pert : nat) (reference : option Sh) (glob : bool) (group : option string) (n_scales : nat) (images : list nat) : M unit :=
    let! g := match group with
              | Some g => ret g
              | None => let! a := lift (nth_res images 0) in
                        let! im := read a in
                        let! kv := lift (nth_res (plms im) 0) in ret (fst kv)
              end in
    let! _ := dlib_mark g images in
    let! batch := dlib_prepare reference images in
    let! _ := dlib_unmark (combine images batch) in
    let! _ := generate_perturbations batch n_pert g glob in
    dlib_scales n_pert g n_scales 0 batch.
End Training.
