(** The ensemble of correlation filter experts of a CLM: clm/expert/ensemble.py.  The correlation filters themselves are
    Model/CorrFilter, the responses of one expert Model/PadCrop and Model/Convolution; here is what lies between the
    images, the shapes and the experts. *)
From Coq Require Import List Arith Bool ZArith Reals.
From Verif.Model Require Import Py Result Base.
Import ListNotations.
Local Open Scope nat_scope.

(** One channel of a patch, flattened row by row. *)
Notation chan := (list R) (only parsing).

(** *** The default patch normalisation, ensemble.py 18-20: normalize_norm of menpo with mode='per_channel' and
    error_on_divide_by_zero=False.  menpo (external) takes the first axis of the array for the channels, whatever the
    number of axes: it subtracts the mean of each entry along the first axis and divides by its Euclidean norm, or leaves
    it centred when that is 0. *)
Section Normalise.
  Local Open Scope R_scope.
  Definition mean (l : chan) : R := sumR (fun x => x) l / INR (length l).
  Definition centre (l : chan) : chan := map (fun x => x - mean l) l.
  Definition norm (l : chan) : R := sqrt (sumR (fun x => x ^ 2) l).
  Definition normalise (l : chan) : chan :=
    let c := centre l in
    if Req_EM_T (norm c) 0 then c else map (fun x => x / norm c) c.
End Normalise.
(** The same on the concatenation of some lists, taken apart again. *)
Fixpoint split_as {X} (shape : list (list X)) (l : list X) : list (list X) :=
  match shape with
  | [] => []
  | s :: r => firstn (length s) l :: split_as r (skipn (length s) l)
  end.
(** patch_normalisation of a 3-dimensional array (channels x height x width). *)
Definition channel_normalize_norm3 (patch : list chan) : list chan := map normalise patch.
(** patch_normalisation of a 4-dimensional array (patches x channels x height x width): the first axis are the patches. *)
Definition channel_normalize_norm4 (patches : list (list chan)) : list (list chan) :=
  map (fun patch => split_as patch (normalise (concat patch))) patches.

(** *** generate_cosine_mask, 447-463: np.hanning(M) is [1] for M = 1. *)
Section Windows.
  Local Open Scope R_scope.
  Definition hanning (M : nat) : list R :=
    if Nat.eqb M 1 then [1]
    else map (fun k => 1 / 2 - 1 / 2 * cos (2 * PI * INR k / (INR M - 1))) (seq 0 M).
  Definition generate_cosine_mask (patch_shape : nat * nat) : list R :=
    concat (map (fun y => map (fun x => y * x) (hanning (snd patch_shape))) (hanning (fst patch_shape))).
  (** generate_gaussian_response, 426-444: the density of scipy's multivariate_normal with mean 0 and a scalar covariance
      (external; a covariance that is not positive is refused) on the grid of base.build_grid. *)
  Definition gaussian_pdf (cov : R) (g : Z * Z) : R :=
    exp (- (IZR (fst g) ^ 2 + IZR (snd g) ^ 2) / (2 * cov)) / (2 * PI * cov).
  Definition generate_gaussian_response (patch_shape : nat * nat) (cov : R) : res (list (list R)) :=
    if Rlt_dec 0 cov then
      Ok (map (map (gaussian_pdf cov)) (build_grid (Z.of_nat (fst patch_shape)) (Z.of_nat (snd patch_shape))))
    else Err ValueError.
End Windows.

Section Ensemble.
  Context {Img Pt Off F FF A B Resp : Type}.
  (** image.extract_patches of menpo (external): the window of a shape at a point with one offset, its channels. *)
  Variable extract : Img -> Pt -> nat * nat -> Off -> list chan.
  (** The callables of the filter class, for the desired response of the ensemble (Model/CorrFilter). *)
  Variable cf : list (list chan) -> res (F * A * B).
  Variable icf : A -> B -> nat -> list (list chan) -> res (F * A * B).
  (** fft2(pad(filter, self.padded_size)), 391-396 *)
  Variable padded : F -> res FF.
  (** One row of fft_convolve2d_sum with fft_filter=True (Model/Convolution) *)
  Variable respond : list chan -> FF -> res Resp.

  (** What the constructor stores, 279-313. *)
  Record settings := mk_settings {
    patch_shape : nat * nat;
    context_shape : nat * nat;
    norm3 : list chan -> list chan;                   (* patch_normalisation on one patch *)
    norm4 : list (list chan) -> list (list chan);     (* and on the patches of a shape *)
    cosine_mask : bool;
    sample_offsets : list Off                         (* None is the single offset (0, 0) *)
  }.
  Variable o : settings.

  (** CorrelationFilterExpertEnsemble._extract_patch, 315-330: the offsets join the channels. *)
  Definition extract_patch (image : Img) (landmark : Pt) : list chan :=
    let patch := concat (map (extract image landmark (context_shape o)) (sample_offsets o)) in
    let patch := norm3 o patch in
    if cosine_mask o then map (fun c => map (fun mx => (fst mx * snd mx)%R) (combine (generate_cosine_mask (context_shape o)) c)) patch
    else patch.

  (** The three arrays of an ensemble, with one row per expert, and the number of images. *)
  Record ensemble := mk_ensemble { n_images : nat; experts : list (FF * A * B) }.

  (** The body of the loop over the experts, 361-400: [old] are the statistics of the expert (increment). *)
  Definition train_expert (n : nat) (old : option (list (FF * A * B))) (images : list Img) (shapes : list (list Pt)) (i : nat) : res (FF * A * B) :=
    let? patches := mapM (fun im_s => let? p := nth_res (snd im_s) i in Ok (extract_patch (fst im_s) p)) (combine images shapes) in
    let? (f, a, b) := match old with
                      | Some es => let? (_, a, b) := nth_res es i in icf a b n patches
                      | None => cf patches
                      end in
    let? ff := padded f in
    Ok (ff, a, b).
  (** _train, 332-403: the attributes are replaced after the loop. *)
  Definition train_loop (n : nat) (old : option (list (FF * A * B))) (images : list Img) (shapes : list (list Pt)) : res (list (FF * A * B)) :=
    let? s0 := nth_res shapes 0 in
    mapM (train_expert n old images shapes) (seq 0 (length s0)).
  Definition train (images : list Img) (shapes : list (list Pt)) : res ensemble :=
    let? es := train_loop (length images) None images shapes in Ok (mk_ensemble (length images) es).
  (** increment, 137-154: the ensemble afterwards and the outcome; [self.n_images] is updated first (351). *)
  Definition increment (e : ensemble) (images : list Img) (shapes : list (list Pt)) : ensemble * res unit :=
    let n := n_images e + length images in
    match train_loop n (Some (experts e)) images shapes with
    | Ok es => (mk_ensemble n es, Ok tt)
    | Err err => (mk_ensemble n (experts e), Err err)
    end.

  (** _extract_patches, 199-212 *)
  Definition extract_patches (image : Img) (shape : list Pt) : list (list chan) :=
    norm4 o (map (fun p => concat (map (extract image p (patch_shape o)) (sample_offsets o))) shape).
  (** predict_response, 214-238: numpy broadcasts the patches against the filters. *)
  Definition predict_response (e : ensemble) (image : Img) (shape : list Pt) : res (list Resp) :=
    let patches := extract_patches image shape in
    let filters := map (fun x => fst (fst x)) (experts e) in
    match patches, filters with
    | [p], _ => mapM (respond p) filters
    | _, [f] => mapM (fun p => respond p f) patches
    | _, _ => if length patches =? length filters then mapM (fun pf => respond (fst pf) (snd pf)) (combine patches filters)
              else Err ValueError
    end.
End Ensemble.
