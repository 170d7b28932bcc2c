(** Correlation filters: menpofit/math/correlationfilter.py, and their use by
    menpofit/clm/expert/base.py 38-130 and menpofit/clm/expert/ensemble.py 332-403. *)
From Coq Require Import List Arith Reals.
From Verif.Model Require Import Py.
Import ListNotations.
Local Open Scope R_scope.

(** Complex numbers. *)
Notation cplx := (R * R)%type (only parsing).
Definition cadd (a b : cplx) : cplx := (fst a + fst b, snd a + snd b).
Definition cmul (a b : cplx) : cplx := (fst a * fst b - snd a * snd b, fst a * snd b + snd a * fst b).
Definition conj (a : cplx) : cplx := (fst a, - snd a).
Definition cscale (t : R) (a : cplx) : cplx := (t * fst a, t * snd a).
Definition norm2 (a : cplx) : R := fst a ^ 2 + snd a ^ 2.
Definition cdiv (a b : cplx) : cplx := cscale (/ norm2 b) (cmul a (conj b)).
Definition czero : cplx := (0, 0).
Definition creal (t : R) : cplx := (t, 0).

(** A spectrum: channel, frequency. *)
Notation spectrum := (nat -> nat -> R * R) (only parsing).
(** The k x k blocks of a sparse matrix that couples channels at equal frequencies: row, column, frequency. *)
Notation blocks := (nat -> nat -> nat -> R * R) (only parsing).

Section Filters.
  (** Training images; [fft x] is fft2(pad(x, ext_shape)) and [fft_y] fft2(pad(y, ext_shape)).  Sizes are the subject
      of Model/PadCrop.v. *)
  Context {I : Type} (fft : I -> spectrum) (fft_y : nat -> cplx).
  (** The regularisation [l]. *)
  Variable l : R.

  (** Lines 65-76: the sums over the images, starting from 0. *)
  Definition auto_energy (X : list I) : spectrum :=
    fun c w => fold_left (fun s x => cadd s (cmul (conj (fft x c w)) (fft x c w))) X czero.
  Definition cross_energy (X : list I) : spectrum :=
    fun c w => fold_left (fun s x => cadd s (cmul (conj (fft x c w)) (fft_y w))) X czero.

  (** mosse, 9-90: (fft_ext_f, sXY, sXX); the inverse transform and the crop are left out.  Without images the sums stay
      the number 0 and the reshape fails. *)
  Definition mosse_filter (sXY sXX : spectrum) : spectrum := fun c w => cdiv (sXY c w) (cadd (sXX c w) (creal l)).
  Definition mosse (X : list I) : res (spectrum * spectrum * spectrum) :=
    match X with
    | [] => Err ValueError
    | _ => let sXX := auto_energy X in
           let sXY := cross_energy X in
           Ok (mosse_filter sXY sXX, sXY, sXX)
    end.
  (** imosse, 93-200, with forgetting factor [f]. *)
  Definition imosse (A B : spectrum) (n_ab : R) (X : list I) (f : R) : res (spectrum * spectrum * spectrum) :=
    let n_x := INR (length X) in
    let n_ab := n_ab * f in
    let n := n_ab + n_x in
    if Req_EM_T n 0 then Err ZeroDivisionError
    else
      let nu_ab := n_ab / n in
      let nu_x := n_x / n in
      let sXX := auto_energy X in
      let sXY := cross_energy X in
      let sXY' := fun c w => cadd (cscale nu_ab (A c w)) (cscale nu_x (sXY c w)) in
      let sXX' := fun c w => cadd (cscale nu_ab (B c w)) (cscale nu_x (sXX c w)) in
      Ok (mosse_filter sXY' sXX', sXY', sXX').

  (** mccf, 203-293: sXX couples the channels, sXY is the same as above. *)
  Definition auto_blocks (X : list I) : blocks :=
    fun a b w => fold_left (fun s x => cadd s (cmul (conj (fft x a w)) (fft x b w))) X czero.
  (** spsolve: the solution of a system of [k] equations per frequency (external). *)
  Variable spsolve : blocks -> spectrum -> spectrum.
  Definition regularised (sXX : blocks) : blocks :=
    fun a b w => cadd (sXX a b w) (if Nat.eqb a b then creal l else czero).
  Definition mccf (X : list I) : res (spectrum * spectrum * blocks) :=
    match X with
    | [] => Err ValueError
    | _ => let sXX := auto_blocks X in
           let sXY := cross_energy X in
           Ok (spsolve (regularised sXX) sXY, sXY, sXX)
    end.
  (** imccf, 296-414. *)
  Definition imccf (A : spectrum) (B : blocks) (n_ab : R) (X : list I) (f : R) : res (spectrum * spectrum * blocks) :=
    let n_x := INR (length X) in
    let n_ab := n_ab * f in
    let n := n_ab + n_x in
    if Req_EM_T n 0 then Err ZeroDivisionError
    else
      let nu_ab := n_ab / n in
      let nu_x := n_x / n in
      let sXX := auto_blocks X in
      let sXY := cross_energy X in
      let sXY' := fun c w => cadd (cscale nu_ab (A c w)) (cscale nu_x (sXY c w)) in
      let sXX' := fun a b w => cadd (cscale nu_ab (B a b w)) (cscale nu_x (sXX a b w)) in
      Ok (spsolve (regularised sXX') sXY', sXY', sXX').
End Filters.

(** *** The ensemble, one expert *)
Section Ensemble.
  Context {I F A B : Type}.
  (** The callables of IncrementalCorrelationFilterThinWrapper (expert/base.py 63-65): mccf and imccf by default, called
      with their default forgetting factor 1.0. *)
  Variable cf : list I -> res (F * A * B).
  Variable icf : A -> B -> R -> list I -> res (F * A * B).
  (** What the ensemble keeps for the expert of one landmark.  The attributes are named auto_correlations and
      cross_correlations the wrong way round (383-389), consistently. *)
  Record expert := mk_expert { n_images : nat; ex_filter : F; ex_a : A; ex_b : B }.
  (** _train, 332-403: the patches of one landmark over the new images. *)
  Definition train_expert (patches : list I) : res expert :=
    let? fab := cf patches in
    Ok (mk_expert (length patches) (fst (fst fab)) (snd (fst fab)) (snd fab)).
  (** [self.n_images += len(images)] (351) comes before its use at 379. *)
  Definition increment_expert (e : expert) (patches : list I) : res expert :=
    let n := (n_images e + length patches)%nat in
    let? fab := icf (ex_a e) (ex_b e) (INR n) patches in
    Ok (mk_expert n (fst (fst fab)) (snd (fst fab)) (snd fab)).
  Fixpoint increments (e : expert) (batches : list (list I)) : res expert :=
    match batches with
    | [] => Ok e
    | b :: bs => let? e' := increment_expert e b in increments e' bs
    end.
End Ensemble.
