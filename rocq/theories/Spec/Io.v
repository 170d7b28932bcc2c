(** What users of pretrained fitters rely on. *)
From Coq Require Import String List Arith.
From Verif.Model Require Import Py Dict Result Io.
Import ListNotations.

Section Wrapped.
  Context {V Img Sh P A C : Type}.
  Notation wresult := (wresult Img Sh P A C).

  (** A keyword the user gave wins, the others come from the defaults. *)
  Definition prefers (user defaults final : dict V) : Prop :=
    forall k, (forall v, In (k, v) user -> dict_get k final = Some v) /\
              (~ In k (map fst user) -> dict_get k final = dict_get k defaults).

  (** [out] is the result [inner] of the preprocessed image told in terms of the original image. *)
  Record mapped_back (f : Sh -> Sh) (image : Img) (inner out : wresult) : Prop := {
    mb_image : w_image out = image;
    mb_final : r_final (w_res out) = f (r_final (w_res inner));
    mb_initial : forall i, r_initial (w_res inner) = Some i -> r_initial (w_res out) = Some (f i);
    mb_shapes : w_iterative inner = true -> r_shapes (w_res out) = map f (r_shapes (w_res inner));
    mb_iterative : w_iterative out = w_iterative inner;
    mb_gt : r_gt (w_res out) = r_gt (w_res inner);
    mb_n_iters : r_n_iters (w_res out) = r_n_iters (w_res inner);
    mb_costs : r_costs (w_res out) = r_costs (w_res inner);
    mb_params : r_params (w_res out) = r_params (w_res inner) }.

  (** The answer [r] of call number [n] follows from what the wrapped fitter and the preprocessing answered. *)
  Definition answer (wrapped : nat -> method -> Img -> Sh -> dict V -> res wresult)
      (preprocess : option (nat -> Img -> Sh -> res (Img * transform Sh))) (defaults : method -> dict V)
      (n : nat) (c : call V Img Sh) (r : res wresult) : Prop :=
    match c with (m, image, shape, user) =>
      exists final, prefers user (defaults m) final /\
        match preprocess with
        | None => r = wrapped n m image shape final
        | Some pre =>
            match pre n image shape with
            | Err e => r = Err e
            | Ok (small, t) =>
                match wrapped n m small (t_pinv t shape) final with
                | Err e => r = Err e
                | Ok inner =>
                    match r_initial (w_res inner) with
                    | Some _ => exists out, r = Ok out /\ mapped_back (t_apply t) image inner out
                    | None => r = Err AttributeError
                    end
                end
            end
        end
    end.
End Wrapped.

Section Load.
  Context {B Fit : Type}.
  Notation environment := (environment B Fit).
  (** Nothing goes wrong around the call; whether the file content can be loaded is decided by [unpickle] alone. *)
  Definition healthy (env : environment) (chunks : list (list B)) (unpickle : list B -> res Fit) : Prop :=
    env_urlopen env = None /\ env_open env = None /\ env_content_length env = None /\ env_events env = map Chunk chunks /\
    env_load env = None /\ env_unlink env = None /\ env_unpickle env = unpickle.
  Definition returned (o : outcome Fit) : Prop := exists f, o = Returned f.
  (** The stream of the call delivered exactly [c]. *)
  Definition delivered (env : environment) (c : list B) : Prop :=
    exists chunks, env_events env = map Chunk chunks /\ c = concat chunks.
End Load.
