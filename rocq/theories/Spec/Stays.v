(** What it means that a fit stays where it starts. *)
From mathcomp Require Import all_ssreflect all_algebra.
Set Implicit Arguments.
Unset Strict Implicit.
Unset Printing Implicit Defensive.
Import GRing.Theory Num.Theory.
Local Open Scope ring_scope.

Section Spec.
Variable F : realFieldType.
(** The pixels [i] are exactly an instance of the appearance model with mean [a_bar] and components [A]. *)
Definition an_instance k m (A : 'M[F]_(k, m)) (a_bar i : 'cV[F]_k) : Prop := exists c, i = a_bar + A *m c.

(** Everything reported after [q] iterations is what was there at the start, and the costs are zero.  The fit makes one
    iteration (unless none were allowed) if a shape is as close to itself as the convergence test asks. *)
Definition stays (P C Sh : Type) (max_iters : nat) (converged : bool) (p : P) (c : C) (s : Sh) (costs : bool)
    (ps : seq P) (cs : seq C) (ss : seq Sh) (ks : option (seq F)) : Prop :=
  exists q, [/\ (q <= max_iters)%N, converged -> q = (0 < max_iters)%N,
                ps = nseq q.+1 p, cs = nseq q.+1 c /\ ss = nseq q.+1 s & ks = if costs then Some (nseq q.+1 0) else None].
End Spec.
