(** The options of view_image_multiple_landmarks: menpofit/visualize/base.py 6-24, 318-350 and 396-409.  The colours go through
    menpo's _check_colours_list and are left out, as is everything that is drawn. *)
From Coq Require Import List Arith.
From Verif.Model Require Import Py.
Import ListNotations.

Section ViewOptions.
  Context {V : Type}.
  (** The caller's lists are objects, known by number. *)
  Definition lists := nat -> list V.
  Definition upd (h : lists) (r : nat) (l : list V) : lists := fun r' => if r' =? r then l else h r'.
  (** An argument: an object that is not a list, or one of the caller's lists. *)
  Inductive arg := Value (v : V) | Ref (r : nat).
  (** The list that an option is bound to afterwards: a new one, or the caller's. *)
  Inductive handle := Fresh (l : list V) | Same (r : nat).
  (** _check_multi_argument, 6-24.  [is_dtype] is the test against the types at 10-13 (bool, str, int, float: no list is of
      these types, and None is not among them).  [arg *= n_objects], 19, extends the list itself. *)
  Definition check_multi_argument (n_objects : nat) (is_dtype : V -> bool) (h : lists) (a : arg) : lists * res handle :=
    match a with
    | Value v => (h, if is_dtype v then Ok (Fresh (repeat v n_objects)) else Err ValueError)
    | Ref r =>
        match h r with
        | [v] => (upd h r (repeat v n_objects), Ok (Same r))
        | l => (h, if length l =? n_objects then Ok (Same r) else Err ValueError)
        end
    end.
  (** 318-350, one check after the other; the first one that fails ends the call. *)
  Fixpoint check_all (n : nat) (h : lists) (opts : list ((V -> bool) * arg)) : lists * res (list handle) :=
    match opts with
    | [] => (h, Ok [])
    | (d, a) :: opts =>
        match check_multi_argument n d h a with
        | (h, Err e) => (h, Err e)
        | (h, Ok x) => let (h, r) := check_all n h opts in (h, match r with Ok xs => Ok (x :: xs) | Err e => Err e end)
        end
    end.
  (** [line_style[k]] etc., 401-408; None: IndexError. *)
  Definition item (h : lists) (x : handle) (k : nat) : option V := nth_error (match x with Fresh l => l | Same r => h r end) k.
  (** What image.view_landmarks gets for each of the [n] groups; the lists are read after all the checks. *)
  Definition view (h : lists) (n : nat) (opts : list ((V -> bool) * arg)) : lists * res (list (list (option V))) :=
    let (h, r) := check_all n h opts in
    (h, match r with Ok xs => Ok (map (fun k => map (fun x => item h x k) xs) (seq 0 n)) | Err e => Err e end).
End ViewOptions.
Arguments arg : clear implicits.
Arguments handle : clear implicits.
Arguments lists : clear implicits.
