(** Pretrained fitters: menpofit/io.py. *)
From Coq Require Import String List Arith Bool.
From Verif.Model Require Import Py Dict Result.
Import ListNotations.

(** ** PickleWrappedFitter, 63-274 *)
Section Wrapped.
  Context {V Img Sh P A C : Type}.
  (** Keyword dictionaries are objects: they live in a heap and are referred to by number, so that sharing and mutation
      are visible. *)
  Definition heap := list (dict V).
  Definition deref (h : heap) (r : nat) : dict V := nth r h [].
  Definition alloc (h : heap) (d : dict V) : heap * nat := (h ++ [d], length h).
  Fixpoint store (h : heap) (r : nat) (d : dict V) : heap :=
    match h, r with
    | [], _ => []
    | _ :: h, O => d :: h
    | x :: h, S r => x :: store h r d
    end.
  (** [d.update(kwargs)] *)
  Definition dict_update (kwargs : dict V) (d : dict V) : dict V := fold_left (fun d kv => dict_set (fst kv) (snd kv) d) kwargs d.

  (** A menpo transform: apply and pseudoinverse().apply on point clouds. *)
  Record transform := mk_transform { t_apply : Sh -> Sh; t_pinv : Sh -> Sh }.
  (** A result object of the wrapped fitter. *)
  Record wresult := mk_wresult { w_image : Img; w_iterative : bool; w_res : iresult Sh P A C }.

  Inductive method := FitFromBb | FitFromShape.
  (** The wrapped fitter's methods and image_preprocess (None: no preprocessing); external, they may answer differently at
      every call, hence the number of the call. *)
  Variable wrapped : nat -> method -> Img -> Sh -> dict V -> res wresult.
  Variable preprocess : option (nat -> Img -> Sh -> res (Img * transform)).

  Record wrapper := mk_wrapper { bb_kwargs : nat; shape_kwargs : nat }.
  Definition defaults_of (w : wrapper) (m : method) : nat := match m with FitFromBb => bb_kwargs w | FitFromShape => shape_kwargs w end.

  (** Lines 221-226 and 268-273; [trans.apply(None)] raises. *)
  Definition map_result (t : transform) (image : Img) (r : wresult) : res wresult :=
    let b := w_res r in
    let final := t_apply t (r_final b) in
    let? initial := match r_initial b with Some i => Ok (t_apply t i) | None => Err AttributeError end in
    let shapes := if w_iterative r then map (t_apply t) (r_shapes b) else r_shapes b in
    Ok (mk_wresult image (w_iterative r)
          {| r_final := final; r_initial := Some initial; r_gt := r_gt b; r_shapes := shapes; r_n_iters := r_n_iters b;
             r_costs := r_costs b; r_params := r_params b; r_app := r_app b |}).

  (** fit_from_bb 181-227 and fit_from_shape 229-274, call number [n]: the new heap and the outcome. *)
  Definition wrapped_fit (w : wrapper) (n : nat) (h : heap) (m : method) (image : Img) (shape : Sh) (kwargs : dict V) : heap * res wresult :=
    (* final_kwargs = self._fit_from_bb_kwargs.copy() *)
    let (h, final_kwargs) := alloc h (deref h (defaults_of w m)) in
    (* final_kwargs.update(kwargs) *)
    let h := store h final_kwargs (dict_update kwargs (deref h final_kwargs)) in
    (h, match preprocess with
        | None => wrapped n m image shape (deref h final_kwargs)
        | Some pre =>
            let? it := pre n image shape in
            let? r := wrapped n m (fst it) (t_pinv (snd it) shape) (deref h final_kwargs) in
            map_result (snd it) image r
        end).

  (** A history of calls. *)
  Definition call : Type := method * Img * Sh * dict V.
  Fixpoint fits (w : wrapper) (n : nat) (h : heap) (calls : list call) : heap * list (res wresult) :=
    match calls with
    | [] => (h, [])
    | (m, i, s, k) :: calls =>
        let (h, r) := wrapped_fit w n h m i s k in
        let (h, rs) := fits w (S n) h calls in
        (h, r :: rs)
    end.
End Wrapped.
Arguments transform : clear implicits.
Arguments wresult : clear implicits.
Arguments call : clear implicits.

(** ** load_fitter, 347-424: one process, any interruption *)
Section Load.
  Context {B Fit : Type}.
  Notation content := (list B).
  (** What happens to one read of the connection and the write that follows: a non-empty buffer; a failed read; a write that
      leaves only a part in the file; the process is killed, having lost the last [lost] buffered bytes. *)
  Inductive io_event := Chunk (b : content) | ReadFails (e : exn) | WriteFails (part : content) (e : exn) | Kill (lost : nat).
  Inductive outcome (T : Type) := Returned (x : T) | Raised (e : exn) | Killed.
  Global Arguments Returned {T} x.
  Global Arguments Raised {T} e.
  Global Arguments Killed {T}.

  (** copy_and_yield 347-354 driven by the loop at 388-389; the end of the list is the empty read.  Closing the file on an
      exception (the with statement) flushes what was written. *)
  Fixpoint copy_loop (file : content) (events : list io_event) : content * outcome unit :=
    match events with
    | [] => (file, Returned tt)
    | Chunk b :: events => copy_loop (file ++ b) events
    | ReadFails e :: _ => (file, Raised e)
    | WriteFails part e :: _ => (file ++ part, Raised e)
    | Kill lost :: _ => (firstn (length file - lost) file, Killed)
    end.
  (** The environment of one call. *)
  Record environment := mk_env {
    env_urlopen : option exn;           (* urlopen fails *)
    env_open : option exn;              (* opening the destination fails *)
    env_content_length : option exn;    (* int(req.headers['content-length']) fails *)
    env_events : list io_event;
    env_load : option (outcome Empty_set);  (* loading is interrupted: a BaseException, or a kill *)
    env_unpickle : content -> res Fit;  (* import_pickle(path)() *)
    env_unlink : option (outcome Empty_set) }.
  Definition interruption {T} (o : outcome Empty_set) : outcome T :=
    match o with Returned x => match x with end | Raised e => Raised e | Killed => Killed end.

  (** download_file, 357-391, verbose=True: the file afterwards and the outcome.  open(..., 'wb') truncates. *)
  Definition download_file (env : environment) (disk : option content) : option content * outcome unit :=
    match env_urlopen env with
    | Some e => (disk, Raised e)
    | None =>
        match env_open env with
        | Some e => (disk, Raised e)
        | None =>
            match env_content_length env with
            | Some e => (Some [], Raised e)
            | None => let (file, o) := copy_loop [] (env_events env) in (Some file, o)
            end
        end
    end.
  (** Lines 416-424; an Exception of import_pickle(path)() is caught, other BaseExceptions and kills are not. *)
  Definition load_existing (env : environment) (disk : option content) : option content * outcome Fit :=
    match env_load env with
    | Some o => (disk, interruption o)
    | None =>
        match (match disk with Some c => env_unpickle env c | None => Err OSError end) with
        | Ok f => (disk, Returned f)
        | Err e =>
            match env_unlink env with
            | Some o => (disk, interruption o)
            | None => match disk with Some _ => (None, Raised e) | None => (None, Raised OSError) end
            end
        end
    end.
  (** load_fitter, 394-424. *)
  Definition load_fitter (env : environment) (disk : option content) : option content * outcome Fit :=
    match disk with
    | Some _ => load_existing env disk
    | None =>
        let (disk, o) := download_file env disk in
        match o with
        | Returned _ => load_existing env disk
        | Raised e => (disk, Raised e)
        | Killed => (disk, Killed)
        end
    end.
  (** A history of calls, each with its environment. *)
  Fixpoint loads (envs : list environment) (disk : option content) : option content * list (outcome Fit) :=
    match envs with
    | [] => (disk, [])
    | env :: envs => let (disk, o) := load_fitter env disk in
                     let (disk, os) := loads envs disk in (disk, o :: os)
    end.
End Load.
Arguments environment : clear implicits.
Arguments outcome : clear implicits.
Arguments io_event : clear implicits.

(** ** Two or more processes calling load_fitter at the same time *)
Section Concurrent.
  Context {B Fit : Type}.
  Variable zero : B.
  (** The file the server delivers and import_pickle(path)(). *)
  Variables (remote : list B) (unpickle : list B -> res Fit).

  (** Control point of one process: about to test path.exists() (410); about to open the file (374); writing inode [i] at
      offset [off] (388); about to load (417); about to unlink (423); finished. *)
  Inductive pc := AtCheck | AtOpen | Writing (i off : nat) | AtLoad | AtUnlink (e : exn) | Finished (o : outcome Fit).
  (** The directory entry of the path and the inodes; an inode stays usable through open files after its removal. *)
  Record world := mk_world { entry : option nat; inodes : list (list B); procs : list pc }.

  (** Write [b] at offset [off]; a gap is filled with zeros. *)
  Definition write_at (off : nat) (b f : list B) : list B :=
    firstn off f ++ repeat zero (off - length f) ++ b ++ skipn (off + length b) f.
  Fixpoint set_nth {T} (i : nat) (x : T) (l : list T) : list T :=
    match l, i with [], _ => [] | _ :: l, O => x :: l | y :: l, S i => y :: set_nth i x l end.

  (** One step of a process, without failures of the network or the disk: the new entry, inodes and control point. *)
  Inductive pstep : option nat -> list (list B) -> pc -> option nat -> list (list B) -> pc -> Prop :=
  | step_exists : forall i ns, pstep (Some i) ns AtCheck (Some i) ns AtLoad
  | step_missing : forall ns, pstep None ns AtCheck None ns AtOpen
  | step_open_new : forall ns, pstep None ns AtOpen (Some (length ns)) (ns ++ [[]]) (Writing (length ns) 0)
  | step_open_old : forall i ns, pstep (Some i) ns AtOpen (Some i) (set_nth i [] ns) (Writing i 0)
  | step_write : forall e ns i off k, 0 < k -> off + k <= length remote ->
      pstep e ns (Writing i off) e (set_nth i (write_at off (firstn k (skipn off remote)) (nth i ns [])) ns) (Writing i (off + k))
  | step_close : forall e ns i, pstep e ns (Writing i (length remote)) e ns AtLoad
  | step_load : forall i ns f, unpickle (nth i ns []) = Ok f -> pstep (Some i) ns AtLoad (Some i) ns (Finished (Returned f))
  | step_damaged : forall i ns x, unpickle (nth i ns []) = Err x -> pstep (Some i) ns AtLoad (Some i) ns (AtUnlink x)
  | step_gone : forall ns, pstep None ns AtLoad None ns (AtUnlink OSError)
  | step_unlink : forall i ns x, pstep (Some i) ns (AtUnlink x) None ns (Finished (Raised x))
  | step_unlink_gone : forall ns x, pstep None ns (AtUnlink x) None ns (Finished (Raised OSError))
  | step_kill : forall e ns p, (forall o, p <> Finished o) -> pstep e ns p e ns (Finished Killed).

  Inductive wstep : world -> world -> Prop :=
  | wstep_proc : forall w i p e ns p', nth_error (procs w) i = Some p -> pstep (entry w) (inodes w) p e ns p' ->
      wstep w (mk_world e ns (set_nth i p' (procs w))).
  Inductive wsteps : world -> world -> Prop :=
  | wsteps_refl : forall w, wsteps w w
  | wsteps_step : forall w w' w'', wstep w w' -> wsteps w' w'' -> wsteps w w''.
End Concurrent.
Arguments pc : clear implicits.
Arguments world : clear implicits.
