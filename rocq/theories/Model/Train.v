(** Batched and incremental training of AAMs, CLMs, APSs and ATMs: menpofit/aam/base.py 167-331,
    clm/base.py 164-308, aps/base.py 203-373, atm/base.py 149-288, unified_aam_clm/base.py 204-308. *)
From Coq Require Import List ZArith Bool.
From Verif.Model Require Import Py Base.
Import ListNotations.
Local Open Scope nat_scope.

(** What one call leaves behind: the state of the object, and the exception if it raised one. *)
Definition outcome (St : Type) : Type := (St * option exn)%type.
Definition andthen {St} (o : outcome St) (f : St -> outcome St) : outcome St :=
  match snd o with Some _ => o | None => f (fst o) end.
Definition set_nth {A} (j : nat) (x : A) (l : list A) : list A := firstn j l ++ x :: skipn (S j) l.

(** A statistical model, known by the data it consumed: the list it was built from, then the list of
    every increment. *)
Notation model D := (list (list D)) (only parsing).

Section Train.
  (** [Img]: training items (images, or shapes for an ATM); [D]: what a statistical model is built from
      (shapes, warped images, patches); [Ref]: reference shapes. *)
  Context {Img D Ref : Type}.
  Record tstate := mkT { t_ref : option Ref; t_models : nat -> list (model D) }.

  Variable n_scales : nat.
  Variable n_kinds : nat.
  (** The data of the given kind at a scale: rescaling to the reference shape, features, scaling,
      alignment and warping of one batch. *)
  Variable data : nat -> nat -> Ref -> list Img -> res (list D).
  (** check of the first item and compute_reference_shape of a batch *)
  Variable reference_of : list Img -> res Ref.

  Definition upd_models (st : tstate) (kind : nat) (ms : list (model D)) : tstate :=
    mkT (t_ref st) (fun k => if k =? kind then ms else t_models st k).

  (** One kind at one scale: aam/base.py 287-293 and 315-331, clm 277-305, aps 314-324, 335-344, 355-370:
      append a new model, or increment the model of this scale. *)
  Definition train_kind (increment : bool) (ref : Ref) (items : list Img) (j kind : nat) (st : tstate) : outcome tstate :=
    match data kind j ref items with
    | Err e => (st, Some e)
    | Ok d =>
        if increment
        then match nth_error (t_models st kind) j with
             | Some m => (upd_models st kind (set_nth j (m ++ [d]) (t_models st kind)), None)
             | None => (st, Some IndexError)
             end
        else (upd_models st kind (t_models st kind ++ [[d]]), None)
    end.

  Fixpoint train_kinds (increment : bool) (ref : Ref) (items : list Img) (j : nat) (kinds : list nat) (st : tstate) : outcome tstate :=
    match kinds with
    | [] => (st, None)
    | k :: r => andthen (train_kind increment ref items j k st) (train_kinds increment ref items j r)
    end.
  (** [for j in range(self.n_scales)] of _train_batch. *)
  Fixpoint train_scales (increment : bool) (ref : Ref) (items : list Img) (js : list nat) (st : tstate) : outcome tstate :=
    match js with
    | [] => (st, None)
    | j :: r => andthen (train_kinds increment ref items j (seq 0 n_kinds) st) (train_scales increment ref items r)
    end.
  (** _train_batch.  The reference shape is always set at this point; were it None, rescaling would
      raise an AttributeError. *)
  Definition train_batch (increment : bool) (items : list Img) (st : tstate) : outcome tstate :=
    match t_ref st with
    | None => (st, Some AttributeError)
    | Some ref => train_scales increment ref items (seq 0 n_scales) st
    end.

  (** The loop over the batches: aam/base.py 186-224, clm 182-216, aps 215-245. *)
  Fixpoint train_batches (increment : bool) (k : nat) (batches : list (list Img)) (st : tstate) : outcome tstate :=
    match batches with
    | [] => (st, None)
    | b :: r =>
        let with_ref :=
          if k =? 0
          then match t_ref st with
               | Some _ => (st, None)
               | None => match reference_of b with
                         | Ok ref => (mkT (Some ref) (t_models st), None)
                         | Err e => (st, Some e)
                         end
               end
          else (st, None) in
        let increment' := if 0 <? k then true else increment in
        andthen with_ref (fun st1 =>
        andthen (train_batch increment' b st1) (train_batches increment' (S k) r))
    end.

  (** The batches of a call, 179-184: all items at once, or [batch(images, batch_size)]. *)
  Definition batches_of (items : list Img) (batch_size : option Z) : res (list (list Img)) :=
    match batch_size with None => Ok [items] | Some n => batch items n end.

  Definition train (increment : bool) (items : list Img) (batch_size : option Z) (st : tstate) : outcome tstate :=
    match batches_of items batch_size with
    | Err e => (st, Some e)
    | Ok bs => train_batches increment 0 bs st
    end.

  (** __init__ (aam/base.py 152-165, clm 123-149, aps 182-201): no model yet; then [_train]. *)
  Definition construct (reference_shape : option Ref) (items : list Img) (batch_size : option Z) : outcome tstate :=
    train false items batch_size (mkT reference_shape (fun _ => [])).

  (** [increment]: aam/base.py 336-386, clm 322-363, aps 375-399. *)
  Definition increment (items : list Img) (batch_size : option Z) (st : tstate) : outcome tstate :=
    train true items batch_size st.

  (** A history of increment calls. *)
  Fixpoint increments (calls : list (list Img * option Z)) (st : tstate) : outcome tstate :=
    match calls with
    | [] => (st, None)
    | (items, bs) :: r => andthen (increment items bs st) (increments r)
    end.

  (** The same when the caller catches the exceptions and carries on; the outcome of every call. *)
  Fixpoint carry_on (calls : list (list Img * option Z)) (st : tstate) : tstate * list (option exn) :=
    match calls with
    | [] => (st, [])
    | (items, bs) :: r =>
        let o := increment items bs st in
        let o' := carry_on r (fst o) in (fst o', snd o :: snd o')
    end.

  (** UnifiedAAMCLM._train, unified_aam_clm/base.py 204-305: always computes the reference shape, no
      batches, no increment. *)
  Definition unified_construct (reference_shape : option Ref) (items : list Img) : outcome tstate :=
    let st := mkT reference_shape (fun _ => []) in
    match reference_of items with
    | Err e => (st, Some e)
    | Ok ref => train_batch false items (mkT (Some ref) (t_models st))
    end.
End Train.
Arguments tstate : clear implicits.

(** *** Active Template Models: warped templates, atm/base.py 149-288. *)
Section Atm.
  Context {Ref Tp Wt D Sh : Type}.
  Variable n_scales : nat.
  Variable data : nat -> Ref -> list Sh -> res (list D).
  Variable reference_of : list Sh -> res Ref.
  Variable rescale : Ref -> Tp -> res Tp.         (* template.rescale_to_pointcloud(reference_shape) *)
  Variable warp : nat -> Ref -> Tp -> res Wt.     (* features, scaling and warping of the template at scale j *)

  Record atm := mkAtm { a_ref : option Ref; a_models : list (model D); a_templates : list Wt }.

  (** _train_batch, 225-285: the warped template is appended whether or not the call increments. *)
  Fixpoint atm_scales (increment : bool) (ref : Ref) (t : Tp) (shapes : list Sh) (js : list nat) (st : atm) : outcome atm :=
    match js with
    | [] => (st, None)
    | j :: r =>
        match data j ref shapes with
        | Err e => (st, Some e)
        | Ok d =>
            andthen
              (if increment
               then match nth_error (a_models st) j with
                    | Some m => (mkAtm (a_ref st) (set_nth j (m ++ [d]) (a_models st)) (a_templates st), None)
                    | None => (st, Some IndexError)
                    end
               else (mkAtm (a_ref st) (a_models st ++ [[d]]) (a_templates st), None))
              (fun st1 =>
                 match warp j ref t with
                 | Err e => (st1, Some e)
                 | Ok w => atm_scales increment ref t shapes r
                             (mkAtm (a_ref st1) (a_models st1) (a_templates st1 ++ [w]))
                 end)
        end
    end.

  (** _train, 168-208; the template is rescaled at the first batch of a call. *)
  Fixpoint atm_batches (increment : bool) (k : nat) (t : Tp) (batches : list (list Sh)) (st : atm) : outcome atm :=
    match batches with
    | [] => (st, None)
    | b :: r =>
        let with_ref :=
          match a_ref st with
          | Some _ => (st, None)
          | None => if k =? 0
                    then match reference_of b with
                         | Ok ref => (mkAtm (Some ref) (a_models st) (a_templates st), None)
                         | Err e => (st, Some e)
                         end
                    else (st, Some AttributeError)
          end in
        andthen with_ref (fun st1 =>
          match a_ref st1 with
          | None => (st1, Some AttributeError)
          | Some ref =>
              match (if k =? 0 then rescale ref t else Ok t) with
              | Err e => (st1, Some e)
              | Ok t' =>
                  let increment' := if 0 <? k then true else increment in
                  andthen (atm_scales increment' ref t' b (seq 0 n_scales) st1)
                          (atm_batches increment' (S k) t' r)
              end
          end)
    end.
  Definition atm_train (increment : bool) (t : Tp) (shapes : list Sh) (batch_size : option Z) (st : atm) : outcome atm :=
    match batches_of shapes batch_size with
    | Err e => (st, Some e)
    | Ok bs => atm_batches increment 0 t bs st
    end.
  Definition atm_construct (reference_shape : option Ref) (t : Tp) (shapes : list Sh) (batch_size : option Z) : outcome atm :=
    atm_train false t shapes batch_size (mkAtm reference_shape [] []).
  (** build_fitter_interfaces 438-462 zips the warped templates with the shape models. *)
  Definition fitter_templates (st : atm) : list (Wt * model D) := combine (a_templates st) (a_models st).
  (** instance/random_instance 376-424 index the two lists separately, [scale_index] defaulting to -1. *)
  Definition last_template (st : atm) : option Wt := nth_error (a_templates st) (length (a_templates st) - 1).
End Atm.
Arguments atm : clear implicits.

(** *** Linear AAMs: one reference frame for all scales, aam/base.py 807-839, 985-1018, atm/base.py
    685-718, 848-882. *)
Section Linear.
  Context {Img Fr : Type}.
  Variable n_scales : nat.
  Variable frame_of : nat -> list Img -> Fr.     (* build_reference_frame of the mean of a batch at scale j *)
  (** The shape model of a scale consumes shapes densified with a frame: a model is known by the frames
      used for its successive data. *)
  Record linear := mkLin { l_frame : option Fr; l_models : list (list Fr) }.

  Fixpoint linear_scales (increment : bool) (items : list Img) (js : list nat) (st : linear) : outcome linear :=
    match js with
    | [] => (st, None)
    | j :: r =>
        andthen
          (if increment
           then (* _increment_shape_model 817-827: densify with self.reference_frame *)
                match l_frame st, nth_error (l_models st) j with
                | Some fr, Some m => (mkLin (l_frame st) (set_nth j (m ++ [fr]) (l_models st)), None)
                | None, _ => (st, Some AttributeError)
                | _, None => (st, Some IndexError)
                end
           else (* _build_shape_model 807-815: self.reference_frame = frame of this scale *)
                (mkLin (Some (frame_of j items)) (l_models st ++ [[frame_of j items]]), None))
          (linear_scales increment items r)
    end.
  Fixpoint linear_batches (increment : bool) (k : nat) (batches : list (list Img)) (st : linear) : outcome linear :=
    match batches with
    | [] => (st, None)
    | b :: r =>
        let increment' := if 0 <? k then true else increment in
        andthen (linear_scales increment' b (seq 0 n_scales) st) (linear_batches increment' (S k) r)
    end.
  Definition linear_construct (items : list Img) (batch_size : option Z) : outcome linear :=
    match batches_of items batch_size with
    | Err e => (mkLin None [], Some e)
    | Ok bs => linear_batches false 0 bs (mkLin None [])
    end.
End Linear.
