(** Generation of perturbed bounding boxes, menpofit/fitter.py 718-790, and their use when training a
    supervised descent fitter, menpofit/sdm/fitter.py 241-368. *)
From Coq Require Import String DecimalString DecimalNat List ZArith Bool.
From Verif.Model Require Import Py Dict Result.
Import ListNotations.
Local Open Scope nat_scope.

(** ['<prefix>{}'.format(k)] *)
Definition show_nat (k : nat) : string := NilEmpty.string_of_uint (Nat.to_uint k).
Definition numbered_key (prefix : string) (k : nat) : string := append prefix (show_nat k).
Definition bb_prefix : string := "__generated_bb_".
Definition sdm_prefix : string := "__sdm_current_shape_".

Section Boxes.
  Context {Sh Px : Type}.
  Record pimage := mkPImage { ppx : Px; plms : dict Sh }.

  Variable bounding_box : Sh -> Sh.                       (* PointCloud.bounding_box() *)
  Variable constrain : Px -> Sh -> Sh.                    (* shape.constrain_to_bounds(im.bounds()) *)
  Variable perturb_func : nat -> Sh -> Sh -> res Sh.      (* the n-th call of the user's function *)
  Variable matches : string -> bool.                      (* fnmatch of a group name against the user's glob *)

  (** bb_glob(im), 749-751: the boxes of the matching groups in the order of the landmark dictionary. *)
  Definition bb_glob (d : dict Sh) : list Sh :=
    map (fun kv => bounding_box (snd kv)) (filter (fun kv => matches (fst kv)) d).

  (** [for _ in range(n_perturbations)], 777-781; [c] counts calls of the user's function. *)
  Fixpoint perturb_loop (n : nat) (p : Px) (gt_s bb : Sh) (c k : nat) (d : dict Sh) : res (nat * nat * dict Sh) :=
    match n with
    | 0 => Ok (c, k, d)
    | S n' =>
        let? s := perturb_func c gt_s bb in
        perturb_loop n' p gt_s bb (S c) (S k)
                     (dict_set (numbered_key bb_prefix k) (constrain p (bounding_box s)) d)
    end.

  (** [for bb in bb_generator(im)], 776-786. *)
  Fixpoint box_loop (n : nat) (glob : bool) (p : Px) (gt_s : Sh) (bbs : list Sh) (c k : nat) (d : dict Sh)
    : res (nat * nat * dict Sh) :=
    match bbs with
    | [] => Ok (c, k, d)
    | bb :: bbs' =>
        let? (c', k', d') := perturb_loop n p gt_s bb c k d in
        if glob
        then box_loop n glob p gt_s bbs' c' (S k') (dict_set (numbered_key bb_prefix k') (constrain p bb) d')
        else box_loop n glob p gt_s bbs' c' k' d'
    end.

  (** [for im in images], 771-786.  The images are changed in place. *)
  Fixpoint image_loop (n : nat) (glob : bool) (gt_group : string) (images : list pimage) (c : nat)
    : res (list pimage) :=
    match images with
    | [] => Ok []
    | im :: rest =>
        let? gt := dict_at gt_group (plms im) in
        let gt_s := bounding_box gt in
        let bbs := if glob then bb_glob (plms im) else [gt_s] in
        let? (c', _, d') := box_loop n glob (ppx im) gt_s bbs c 0 (plms im) in
        let? rest' := image_loop n glob gt_group rest c' in
        Ok (mkPImage (ppx im) d' :: rest')
    end.

  (** generate_perturbations_from_gt, 718-786: the images afterwards.  [glob] tells whether a glob was
      given. *)
  Definition generate_perturbations_from_gt (images : list pimage) (n_perturbations : nat)
             (gt_group : string) (glob : bool) : res (list pimage) :=
    let? n_bbs := if glob then let? im0 := nth_res images 0 in Ok (length (bb_glob (plms im0))) else Ok 1 in
    if n_bbs =? 0 then Err ValueError
    else image_loop n_perturbations glob gt_group images 0.

  (** The callable returned, 788-789: the groups whose name starts with '__generated_bb_'. *)
  Definition generated_bb_func (im : pimage) : list Sh :=
    map snd (filter (fun kv => prefix bb_prefix (fst kv)) (plms im)).
End Boxes.
Arguments pimage : clear implicits.
Arguments mkPImage {Sh Px}.
Arguments ppx {Sh Px}.
Arguments plms {Sh Px}.

(** *** Flow of the perturbed shapes through the scales of SupervisedDescentFitter._train_batch. *)
Section Train.
  Context {Sh Px Tr : Type}.
  Notation img := (pimage Sh Px).
  Variable feature : nat -> img -> res img.          (* compute_features, one image *)
  Variable scale_image : nat -> img -> res (img * Tr). (* scale_images at scale number j, one image *)
  Variable tapply : Tr -> Sh -> Sh.
  Variable align : Sh -> res Sh.                     (* reference shape aligned with a box *)
  (** algorithms[j].train(scaled_images, scaled_shapes, current_shapes): the estimates, same layout. *)
  Variable train : nat -> list img -> list Sh -> list (list Sh) -> res (list (list Sh)).

  Definition sdm_key (k : nat) : string := numbered_key sdm_prefix k.

  (** Attaching the estimates of one image, 347-351 and 356-360. *)
  Fixpoint attach_from (k : nat) (t : Tr) (shapes : list Sh) (d : dict Sh) : dict Sh :=
    match shapes with
    | [] => d
    | s :: r => attach_from (S k) t r (dict_set (sdm_key k) (tapply t s) d)
    end.
  Fixpoint attach (images : list img) (ts : list Tr) (shapes : list (list Sh)) : list img :=
    match images, ts, shapes with
    | im :: images', t :: ts', ss :: shapes' =>
        mkPImage (ppx im) (attach_from 0 t ss (plms im)) :: attach images' ts' shapes'
    | images, _, _ => images
    end.

  (** Shapes of scale j > 0, 321-326. *)
  Definition read_shapes (n_perturbations : nat) (im : img) : res (list Sh) :=
    mapM (fun k => dict_at (sdm_key k) (plms im)) (seq 0 n_perturbations).
  (** Shapes of the first scale, 307-313. *)
  Definition first_shapes (im : img) : res (list Sh) := mapM align (generated_bb_func im).

  (** Cleaning of the training images at the last scale, 364-368. *)
  Fixpoint del_keys (ks : list nat) (d : dict Sh) : res (dict Sh) :=
    match ks with
    | [] => Ok d
    | k :: r => let? d' := dict_del (sdm_key k) d in del_keys r d'
    end.
  Definition clean (n_perturbations : nat) (batch : list img) : res (list img) :=
    let? im0 := nth_res batch 0 in
    match dict_get (sdm_key 0) (plms im0) with
    | Some _ => mapM (fun im => let? d := del_keys (seq 0 n_perturbations) (plms im) in Ok (mkPImage (ppx im) d)) batch
    | None => Ok batch
    end.

  (** The loop over scales, 257-368, for the feature functions [fs] of the remaining scales; feature
      number 0 is no_op.  [fimgs] is None when feature_images is image_batch itself.  Returned: per scale
      the scaled images, the shapes trained from and the estimates returned; and image_batch at the end. *)
  Definition scale_trace := (list img * list (list Sh) * list (list Sh))%type.
  Fixpoint scale_loop (n_pert : nat) (group : string) (j : nat) (fs : list nat) (prev : nat)
           (batch : list img) (fimgs : option (list img)) : res (list scale_trace * list img) :=
    match fs with
    | [] => Ok ([], batch)
    | f :: fs' =>
        let? fimgs' :=
          if (j =? 0) && (f =? 0) then Ok None
          else if (j =? 0) || negb (f =? prev) then let? l := mapM (feature f) batch in Ok (Some l)
          else Ok fimgs in
        let feature_images := match fimgs' with Some l => l | None => batch end in
        let? scaled := mapM (scale_image j) feature_images in
        let scaled_images := map fst scaled in
        let ts := map snd scaled in
        let? gts := mapM (fun im => dict_at group (plms im)) scaled_images in
        let? current := if j =? 0 then mapM first_shapes scaled_images
                        else mapM (read_shapes n_pert) scaled_images in
        let? estimates := train j scaled_images gts current in
        match fs' with
        | [] =>
            let? batch' := clean n_pert batch in
            Ok ([(scaled_images, current, estimates)], batch')
        | f' :: _ =>
            let '(batch', fimgs'') :=
              if negb (f' =? f) then (attach batch ts estimates, fimgs')
              else match fimgs' with
                   | Some l => (batch, Some (attach l ts estimates))
                   | None => (attach batch ts estimates, None)
                   end in
            let? (rest, final) := scale_loop n_pert group (S j) fs' f batch' fimgs'' in
            Ok ((scaled_images, current, estimates) :: rest, final)
        end
    end.
End Train.
