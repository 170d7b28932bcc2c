(** The ring tactic for identities between elements of a mathcomp realFieldType: [Add Ring Fr : (@r_ring F).] in a section,
    then [mring F]. *)
From mathcomp Require Import all_ssreflect all_algebra.
From Coq Require Export Ring.
From Coq Require Import Ring_theory.
Import GRing.Theory Num.Theory.
Local Open Scope ring_scope.
Section S.
Variable F : realFieldType.
Definition rT : Type := F.
Definition r0 : rT := (0 : F).
Definition r1 : rT := (1 : F).
Definition radd (x y : rT) : rT := (x : F) + y.
Definition rmul (x y : rT) : rT := (x : F) * y.
Definition ropp (x : rT) : rT := - (x : F).
Definition rsub (x y : rT) : rT := (x : F) - y.
Lemma r_ring : @ring_theory rT r0 r1 radd rmul rsub ropp eq.
Proof.
  split; rewrite /rT /r0 /r1 /radd /rmul /rsub /ropp; intros; rewrite ?add0r ?mul1r ?addrA ?mulrA ?mulrDl ?subrr //;
  first [exact: addrC | exact: mulrC].
Qed.
End S.
Ltac mring F :=
  rewrite ?expr2 ?mulr2n ?mulr1n ?mulr0n;
  repeat match goal with
  | |- context [@GRing.add ?z ?a ?b] => change (@GRing.add z a b) with (radd F a b)
  | |- context [@GRing.mul ?z ?a ?b] => change (@GRing.mul z a b) with (rmul F a b)
  | |- context [@GRing.opp ?z ?a] => change (@GRing.opp z a) with (ropp F a)
  | |- context [GRing.zero ?z] => change (GRing.zero z) with (r0 F)
  | |- context [GRing.one ?z] => change (GRing.one z) with (r1 F)
  end;
  match goal with |- @eq _ ?x ?y => change (@eq (rT F) x y) end;
  ring.
Section T.
Variable F : realFieldType.
Add Ring Fr : (@r_ring F).
Lemma mring_test n (v : 'cV[F]_n) i (b c d: F) : (v i 0 + b) ^+2 * (c - d) = (v i 0 ^+2 + b^+2 + 2%:R * (v i 0) * b) * (c - d).
Proof. mring F. Qed.
End T.
