From Coq Require Import String.
From Verif.Model Require Import Py Einsum ModelInstance Jacobian.
From Verif.Spec Require Import ModelInstance Jacobian.
From Verif.Proofs Require Import ModelInstance MRing Projection.
From mathcomp Require Import all_ssreflect all_algebra.
Set Implicit Arguments.
Unset Strict Implicit.
Unset Printing Implicit Defensive.
Import Order.TTheory GRing.Theory Num.Theory.
Local Open Scope ring_scope.

Section P.
Variable F : realFieldType.
Add Ring Fr : (@r_ring F).

(** The derivative is unique. *)
Lemma derivative_unique P d (f : (nat -> F) -> nat -> F) p j j' : derivative P d f p j -> derivative P d f p j' ->
  forall k r, (k < P)%N -> (r < d)%N -> j k r = j' k r.
Proof.
  move=> A B k r K R. have := A (fun i => (i == k)%:R) r R. rewrite (B _ r R) => /addrI.
  have S (g : nat -> nat -> F) : \sum_(i < P) (nat_of_ord i == k)%:R * g i r = g k r.
    rewrite (bigD1 (Ordinal K)) //= eqxx mul1r big1 ?addr0 // => i. rewrite -val_eqE /= => /negbTE ->. by rewrite mul0r.
  by rewrite (S j') (S j) => ->.
Qed.

(** Sums by rows. *)
Lemma sum_rows m d (g : nat -> F) : \sum_(k < m * d) g k = \sum_(c < m) \sum_(r < d) g (c * d + r)%N.
Proof.
  elim: m => [|m IH]; first by rewrite mul0n !big_ord0.
  rewrite big_ord_recr /= -IH. rewrite -(big_mkord xpredT g) (@big_cat_nat _ _ _ (m * d)) //=; last by rewrite leq_mul2r leqnSn orbT.
  rewrite big_mkord. congr (_ + _). rewrite -{1}[(m * d)%N]add0n big_addn mulSn addnK big_mkord. by apply: eq_bigr => r _; rewrite addnC.
Qed.

Lemma affine_loop d (pt : nat -> nat -> F) m i k c : (c < d)%N ->
  foldl (fun jac a => fill d jac (a * d) (fun q => pt q a)) (fun _ _ _ => 0) (iota 0 m) i k c =
  if (k < m * d)%N && (k %% d == c)%N then pt i (k %/ d)%N else 0.
Proof.
  move=> C. have D : (0 < d)%N by case: d C.
  elim: m => [|m IH]; first by [].
  rewrite -addn1 iotaD foldl_cat /= add0n {1}/fill IH addn1 mulSn.
  case: (ltnP k (m * d)) => K /=.
  - by rewrite (ltn_addl _ K).
  - rewrite [(m * d + d)%N]addnC. case: (ltnP k (d + m * d)) => K' //=.
    have Kk : (k = m * d + (k - m * d))%N by rewrite subnKC.
    have R : (k - m * d < d)%N by rewrite ltn_subLR // addnC.
    rewrite {2 3}Kk modnMDl modn_small // divnMDl // divn_small // addn0. by [].
Qed.

Lemma sum_pick d r (g : nat -> F) : (r < d)%N -> \sum_(k < d) (if nat_of_ord k == r then g k else 0) = g r.
Proof.
  move=> R. rewrite (bigD1 (Ordinal R)) //= eqxx big1 ?addr0 // => k. by rewrite -val_eqE /= => /negbTE ->.
Qed.

Lemma affine_d_dp_ok d (points : tensor F) n : t_shape points = [:: n; d] -> (0 < d)%N ->
  exists2 jac, affine_d_dp d points = Ok jac & t_shape jac = [:: n; (d * d + d)%N; d] /\
  forall i p, derivative (d * d + d) d (fun p => affine_map d p (fun c => t_get points [:: i; c])) p (fun k r => t_get jac [:: i; k; r]).
Proof.
  move=> S D. rewrite /affine_d_dp S eqxx /=. rewrite (gtn_eqF D). eexists; first reflexivity. split=> // i p h r R /=.
  have L : (d.-1 * d + d = d * d)%N by rewrite addnC -mulSn prednK.
  rewrite L /affine_map.
  rewrite [in RHS](bigID (fun k : 'I_(d * d + d) => (k < d * d)%N)) /=.
  set pt := fun c => t_get points [:: i; c].
  have A : \sum_(k < d * d + d | (k < d * d)%N) h k * fill d (foldl (fun jac a => fill d jac (a * d) (fun q => t_get points [:: q; a])) (fun _ _ _ => 0) (iota 0 d)) (d * d) (fun _ => 1) i k r
    = \sum_(c < d) h (c * d + r)%N * pt c.
    rewrite -(big_ord_widen_cond (d * d + d) xpredT (fun k => h k * _ i k r)) ?leq_addr //=.
    rewrite (sum_rows d d (fun k => h k * fill _ _ _ _ i k r)). apply: eq_bigr => c _.
    rewrite -(sum_pick (fun k => h (c * d + k)%N * pt c) R). apply: eq_bigr => k _.
    have K : (c * d + k < d * d)%N by rewrite -ltn_divLR // divnMDl // divn_small // addn0.
    rewrite /fill leqNgt K /= -/fill (affine_loop (fun q a => t_get points [:: q; a])) // K /= modnMDl modn_small //.
    rewrite divnMDl // divn_small // addn0. by case: eqP => [->|_]; rewrite ?mulr0.
  have B : \sum_(k < d * d + d | ~~ (k < d * d)%N) h k * fill d (foldl (fun jac a => fill d jac (a * d) (fun q => t_get points [:: q; a])) (fun _ _ _ => 0) (iota 0 d)) (d * d) (fun _ => 1) i k r
    = h (d * d + r)%N.
    have Rr : (d * d + r < d * d + d)%N by rewrite ltn_add2l.
    rewrite (bigD1 (Ordinal Rr)) /=; last by rewrite -leqNgt leq_addr.
    rewrite /fill leq_addr Rr addKn eqxx mulr1 big1 ?addr0 // => k /andP [K /eqP N]. rewrite -leqNgt in K.
    rewrite K ltn_ord /=. case: eqP => E.
    - exfalso. apply: N. apply: val_inj. by rewrite /= -E subnKC.
    - rewrite -/fill (affine_loop (fun q a => t_get points [:: q; a])) // ltnNge K /=. by rewrite mulr0.
  rewrite A B.
  have E : \sum_(c < d) (p (c * d + r)%N + h (c * d + r)%N) * pt c = \sum_(c < d) p (c * d + r)%N * pt c + \sum_(c < d) h (c * d + r)%N * pt c.
    rewrite -big_split. apply: eq_bigr => c _. by rewrite mulrDl.
  rewrite E. set s1 := \sum_(c < d) p _ * _. set s2 := \sum_(c < d) h _ * _. mring F.
Qed.

Lemma affine_d_dx_ok d (p x h : nat -> F) r : (r < d)%N ->
  affine_map d p (fun c => x c + h c) r = affine_map d p x r + \sum_(c < d) t_get (affine_d_dx d (affine_linear d p)) [:: 0; r; nat_of_ord c]%N * h c.
Proof.
  move=> R. rewrite /affine_map /=.
  have -> : \sum_(c < d) affine_linear d p r c * h c = h r + \sum_(c < d) p (c * d + r)%N * h c.
    rewrite -(sum_pick h R) -big_split /=. apply: eq_bigr => c _. rewrite /affine_linear mulrDl eq_sym. congr (_ + _).
    by case: eqP; rewrite ?mul1r ?mul0r.
  have -> : \sum_(c < d) p (c * d + r)%N * (x c + h c) = \sum_(c < d) p (c * d + r)%N * x c + \sum_(c < d) p (c * d + r)%N * h c.
    rewrite -big_split. apply: eq_bigr => c _. by rewrite mulrDr.
  set s1 := \sum_(c < d) _. set s2 := \sum_(c < d) _. mring F.
Qed.

Lemma similarity_d_dp_ok (points : tensor F) n : t_shape points = [:: n; 2%N] ->
  exists2 jac, similarity_d_dp 2 points = Ok jac & t_shape jac = [:: n; 4; 2]%N /\
  forall i p, derivative 4 2 (fun p => similarity_map p (fun c => t_get points [:: i; c])) p (fun k r => t_get jac [:: i; k; r]).
Proof.
  move=> S. rewrite /similarity_d_dp S /=. eexists; first reflexivity. split=> // i p h r R /=.
  rewrite !big_ord_recl big_ord0 /= /set_row /= /bump /= !add1n /= /similarity_map.
  case: r R => [|[|r]] //= _; rewrite ?subn0 ?subnn; mring F.
Qed.

(** ** einsum on the strings the code uses *)
Lemma bcast n x : (x < n)%N -> (if n == 1%N then 0%N else x) = x.
Proof. by case: eqP => // ->; case: x. Qed.
Lemma sum_bcast n (g : nat -> F) : \sum_(x < n) g (if n == 1%N then 0%N else nat_of_ord x) = \sum_(x < n) g x.
Proof. by apply: eq_bigr => x _; rewrite bcast. Qed.

Lemma einsum_idj n p (A B : tensor F) : t_shape A = [:: 1; 2; 2]%N -> t_shape B = [:: n; p; 2]%N ->
  exists2 T, einsum [:: "ilj"%string; "idj"%string] "idj" [:: A; B] = Ok T & t_shape T = [:: n; p; 2]%N /\
  forall i k c, (i < n)%N -> (k < p)%N -> (c < 2)%N ->
    t_get T [:: i; k; c] = (t_get A [:: 0; 0; c]%N + t_get A [:: 0; 1; c]%N) * t_get B [:: i; k; c].
Proof.
  move=> SA SB. rewrite /einsum /= SA SB /= /extent /= SA SB /=.
  have X : (match [seq n0 <- [:: n] | n0 != 1%N] with [::] => Ok 1%N | n' :: ns' => if all (fun m => m == n') ns' then Ok n' else Err ValueError end) = Ok n.
    by rewrite /=; case: eqP => [->|_].
  have Y : (match [seq n0 <- [:: p] | n0 != 1%N] with [::] => Ok 1%N | n' :: ns' => if all (fun m => m == n') ns' then Ok n' else Err ValueError end) = Ok p.
    by rewrite /=; case: eqP => [->|_].
  rewrite /= in X Y. rewrite X Y /=. eexists; first reflexivity. split=> // i k c I K C.
  rewrite /= !big_ord_recl big_ord0 /= /entry /= SA SB /= addr0 !bcast // /bump /=. by rewrite -mulrDl.
Qed.

Lemma extent1 (n : nat) : (match [seq x <- [:: n] | x != 1%N] with [::] => Ok 1%N | n' :: ns' => if all (fun m => m == n') ns' then Ok n' else Err ValueError end) = Ok n.
Proof. by rewrite /=; case: eqP => [->|_]. Qed.
Lemma extent2 (n : nat) : (match [seq x <- [:: n; n] | x != 1%N] with [::] => Ok 1%N | n' :: ns' => if all (fun m => m == n') ns' then Ok n' else Err ValueError end) = Ok n.
Proof. by rewrite /=; case: eqP => [->|_] //=; rewrite eqxx. Qed.

Lemma einsum_jl n p q (A B : tensor F) : t_shape A = [:: n; p; 2]%N -> t_shape B = [:: n; q; 2]%N ->
  exists2 T, einsum [:: "ijk"%string; "ilk"%string] "jl" [:: A; B] = Ok T & t_shape T = [:: p; q] /\
  forall j l, (j < p)%N -> (l < q)%N ->
    t_get T [:: j; l] = \sum_(i < n) \sum_(k < 2) t_get A [:: nat_of_ord i; j; nat_of_ord k] * t_get B [:: nat_of_ord i; l; nat_of_ord k].
Proof.
  move=> SA SB. rewrite /einsum /= SA SB /= /extent /= SA SB /=.
  have X := extent2 n. have Y := extent1 p. have Z := extent1 q. rewrite /= in X Y Z. rewrite X Y Z /=.
  eexists; first reflexivity. split=> // j l J L /=.
  apply: eq_bigr => i _. apply: eq_bigr => k _. by rewrite /entry /= SA SB /= !bcast.
Qed.
Lemma einsum_ilk n a p (A B : tensor F) : t_shape A = [:: a; 2; 2]%N -> t_shape B = [:: n; p; 2]%N -> a = 1%N \/ a = n ->
  exists2 T, einsum [:: "ijk"%string; "ilk"%string] "ilk" [:: A; B] = Ok T & t_shape T = [:: n; p; 2]%N /\
  forall i k c, (i < n)%N -> (k < p)%N -> (c < 2)%N ->
    t_get T [:: i; k; c] = (t_get A [:: (if a == 1%N then 0%N else i); 0; c]%N + t_get A [:: (if a == 1%N then 0%N else i); 1; c]%N) * t_get B [:: i; k; c].
Proof.
  move=> SA SB a1n. rewrite /einsum /= SA SB /= /extent /= SA SB /=.
  have -> : (match (if a != 1%N then a :: (if n != 1%N then [:: n] else [::]) else if n != 1%N then [:: n] else [::]) with
     [::] => Ok 1%N | n' :: ns' => if all (fun m => m == n') ns' then Ok n' else Err ValueError end) = Ok n.
    case: a1n => ->; first by have := extent1 n. by have := extent2 n.
  have Z := extent1 p. rewrite /= in Z. rewrite Z /=.
  eexists; first reflexivity. split=> // i k c I K C /=.
  rewrite !big_ord_recl big_ord0 /= /entry /= SA SB /= addr0 !(bcast I) !(bcast K) // /bump /=. by rewrite -mulrDl.
Qed.
Lemma einsum_eilk (A B : tensor F) : einsum [:: "ijk"%string; "ilk"%string] "eilk" [:: A; B] = Err ValueError.
Proof. by rewrite /einsum /=; case: ifP. Qed.
Lemma einsum_klj n m (A B : tensor F) : t_shape A = [:: (n + 3); 2]%N -> t_shape B = [:: (m + 3); n; 2]%N ->
  if m == n then
    exists2 T, einsum [:: "ij"%string; "ikl"%string] "klj" [:: A; B] = Ok T & t_shape T = [:: n; 2; 2]%N /\
    forall k l j, (k < n)%N -> (l < 2)%N -> (j < 2)%N ->
      t_get T [:: k; l; j] = \sum_(i < n + 3) t_get A [:: nat_of_ord i; j] * t_get B [:: nat_of_ord i; k; l]
  else einsum [:: "ij"%string; "ikl"%string] "klj" [:: A; B] = Err ValueError.
Proof.
  move=> SA SB. rewrite /einsum /= SA SB /= /extent /= SA SB /=.
  have N1 x : (x + 3 != 1)%N by rewrite addn3. rewrite !N1 /=.
  case: eqP => [E|NE].
  - rewrite E eqxx /=. have Z := extent1 n. rewrite /= in Z. rewrite Z /=.
    eexists; first reflexivity. split=> // k l j K L J /=. rewrite E in SB *. apply: eq_bigr => i _.
    rewrite /entry /= SA SB /= !(bcast K) // !ifN //; exact: N1.
  - rewrite eqn_add2r. by case: eqP.
Qed.

(** ** Shape models *)
Section Shapes.
Variable N : nat.
Notation shape := 'M[F]_(N, 2).
Lemma at_E (s : shape) (i : 'I_N) (c : 'I_2) : at_ s i c = s i c.
Proof. by rewrite /at_ !valK. Qed.
Lemma hstack_ok n p q (a b : tensor F) : t_shape a = [:: n; p; 2]%N -> t_shape b = [:: n; q; 2]%N ->
  exists2 t, hstack3 a b = Ok t & t_shape t = [:: n; (p + q)%N; 2%N] /\
  (forall i k c, (k < p)%N -> t_get t [:: i; k; c] = t_get a [:: i; k; c]) /\
  (forall i k c, t_get t [:: i; (p + k)%N; c] = t_get b [:: i; k; c]).
Proof.
  move=> A B. rewrite /hstack3 A B !eqxx /=. eexists; first reflexivity. split=> //. split=> [i k c K|i k c] /=; first by rewrite K.
  by rewrite ltnNge leq_addr /= addKn.
Qed.
Lemma global_d_dp_ok (dq : tensor F) q (m : lmodel F N) (g : sim F) : t_shape dq = [:: N; q; 2%N] ->
  exists2 jac, global_d_dp (Ok dq) m g = Ok jac & t_shape jac = [:: N; (q + size (active m))%N; 2%N] /\
  (forall i k c, (k < q)%N -> t_get jac [:: i; k; c] = t_get dq [:: i; k; c]) /\
  (forall (i : 'I_N) k (c : 'I_2), (k < size (active m))%N ->
     t_get jac [:: nat_of_ord i; (q + k)%N; nat_of_ord c] = (if c == 0 then 1 + s_a g + s_b g else 1 + s_a g - s_b g) * (nth 0 (active m) k) i c).
Proof.
  move=> D. rewrite /global_d_dp /=.
  have SB : t_shape (pdm_d_dp m) = [:: N; size (active m); 2%N] by [].
  have [T -> [ST VT]] := @einsum_idj N (size (active m)) (affine_d_dx 2 (sim_linear g)) (pdm_d_dp m) erefl SB.
  cbn [bind]. have [jac -> [SJ [L R]]] := hstack_ok D ST. exists jac => //. split=> //. split=> // i k c K.
  rewrite R VT // [t_get (pdm_d_dp m) _]/= at_E. congr (_ * _).
  have [->|->] := ord2 c; rewrite /= /sim_linear /=; mring F.
Qed.
Lemma generated_derivative (m : lmodel F N) g i w :
  derivative (size (active m)) 2 (generated m g i) w
    (fun k r => if r == 0%N then (1 + s_a g) * (nth 0 (active m) k) i 0 - s_b g * (nth 0 (active m) k) i 1
                else s_b g * (nth 0 (active m) k) i 0 + (1 + s_a g) * (nth 0 (active m) k) i 1).
Proof.
  move=> h r R. rewrite /generated.
  have S (c : 'I_2) : \sum_(k < size (active m)) (w k + h k) * (nth 0 (active m) k) i c =
     \sum_(k < size (active m)) w k * (nth 0 (active m) k) i c + \sum_(k < size (active m)) h k * (nth 0 (active m) k) i c.
    rewrite -big_split. apply: eq_bigr => k _. by rewrite mulrDl.
  rewrite !S. set X := \sum_(k < _) h k * _ i 0. set Y := \sum_(k < _) h k * _ i 1.
  set X0 := \sum_(k < _) w k * _ i 0. set Y0 := \sum_(k < _) w k * _ i 1.
  case: r R => [|[|r]] //= _.
  - have -> : \sum_(k < size (active m)) h k * ((1 + s_a g) * (nth 0 (active m) k) i 0 - s_b g * (nth 0 (active m) k) i 1) = (1 + s_a g) * X - s_b g * Y.
      rewrite /X /Y !mulr_sumr -sumrB. apply: eq_bigr => k _. by rewrite mulrBr !mulrA ![h k * _]mulrC.
    mring F.
  - have -> : \sum_(k < size (active m)) h k * (s_b g * (nth 0 (active m) k) i 0 + (1 + s_a g) * (nth 0 (active m) k) i 1) = s_b g * X + (1 + s_a g) * Y.
      rewrite /X /Y !mulr_sumr -big_split. apply: eq_bigr => k _. by rewrite /= mulrDr !mulrA ![h k * _]mulrC.
    mring F.
Qed.
Lemma global_d_dp_exact (dq : tensor F) q (m : lmodel F N) (g : sim F) jac i w : t_shape dq = [:: N; q; 2%N] ->
  global_d_dp (Ok dq) m g = Ok jac -> s_b g = 0 ->
  derivative (size (active m)) 2 (generated m g i) w (fun k r => t_get jac [:: nat_of_ord i; (q + k)%N; r]).
Proof.
  move=> D E B. have [jac' E' [_ [_ V]]] := global_d_dp_ok m g D. have {E} -> : jac = jac' by move: E; rewrite E' => -[].
  move=> h r R. rewrite (generated_derivative m g i w h R). congr (_ + _). apply: eq_bigr => k _. congr (_ * _).
  case: r R => [|[|r]] //= _.
  - have := V i k 0 (ltn_ord k). rewrite /= => ->. rewrite B. mring F.
  - have := V i k 1 (ltn_ord k). rewrite /= => ->. rewrite B. mring F.
Qed.
Lemma global_d_dp_wrong (dq : tensor F) q (m : lmodel F N) (g : sim F) jac i k w : t_shape dq = [:: N; q; 2%N] ->
  global_d_dp (Ok dq) m g = Ok jac -> s_b g != 0 -> (k < size (active m))%N ->
  (nth 0 (active m) k) i 0 + (nth 0 (active m) k) i 1 != 0 ->
  ~ derivative (size (active m)) 2 (generated m g i) w (fun k r => t_get jac [:: nat_of_ord i; (q + k)%N; r]).
Proof.
  move=> D E B K XY W. have [jac' E' [_ [_ V]]] := global_d_dp_ok m g D. have {E} E : jac = jac' by move: E; rewrite E' => -[].
  have := derivative_unique W (generated_derivative m g i w) K (isT : (0 < 2)%N).
  rewrite /= E. have := V i k 0 K. rewrite /= => -> /eqP. rewrite -subr_eq0.
  set x := _ i 0 in XY *. set y := _ i 1 in XY *.
  have -> : (1 + s_a g + s_b g) * x - ((1 + s_a g) * x - s_b g * y) = s_b g * (x + y) by mring F.
  by rewrite mulf_eq0 (negbTE B) (negbTE XY).
Qed.
End Shapes.

(** ** Piecewise affine warps *)
Section Pwa.
Variables (n : nat) (tl : seq (nat * nat * nat)).
Lemma sum_tri (v0 v1 v2 : nat) (x y z : F) (g : nat -> F) : (v0 < n)%N -> (v1 < n)%N -> (v2 < n)%N -> v0 != v1 -> v0 != v2 -> v1 != v2 ->
  \sum_(l < n) (if nat_of_ord l == v2 then z else if nat_of_ord l == v1 then y else if nat_of_ord l == v0 then x else 0) * g l
  = x * g v0 + y * g v1 + z * g v2.
Proof.
  move=> A B C N1 N2 N3.
  rewrite -[x * g v0](sum_pick (fun l => x * g l) A) -[y * g v1](sum_pick (fun l => y * g l) B) -[z * g v2](sum_pick (fun l => z * g l) C) -!big_split /=.
  apply: eq_bigr => l _. have [->|L2] := eqVneq (nat_of_ord l) v2.
    by rewrite eq_sym (negbTE N2) eq_sym (negbTE N3) !add0r.
  have [->|L1] := eqVneq (nat_of_ord l) v1; first by rewrite eq_sym (negbTE N1) addr0 add0r.
  by case: eqP => _; rewrite ?addr0 ?mul0r.
Qed.
Lemma pwa_sum (where_ : seq (bary F)) i c (g : nat -> F) : triangulation n tl -> (i < size where_)%N -> (b_tri (nth (Bary 0 0 0) where_ i) < size tl)%N ->
  \sum_(l < n) t_get (pwa_d_dl n tl where_) [:: i; nat_of_ord l; c] * g l =
  let b := nth (Bary 0 0 0) where_ i in let '(v0, v1, v2) := nth (0, 0, 0)%N tl (b_tri b) in
  (1 - b_alpha b - b_beta b) * g v0 + b_alpha b * g v1 + b_beta b * g v2.
Proof.
  move=> T I B /=. have := T _ (mem_nth (0, 0, 0)%N B). set b := nth _ where_ i.
  case E : (nth (0, 0, 0)%N tl (b_tri b)) => [[v0 v1] v2] /and5P [A0 A1 A2 N1 /andP [N2 N3]]. exact: sum_tri.
Qed.
Lemma pwa_apply_E (where_ : seq (bary F)) i c (t : nat -> nat -> F) : triangulation n tl -> (i < size where_)%N -> (b_tri (nth (Bary 0 0 0) where_ i) < size tl)%N ->
  pwa_apply tl t (nth (Bary 0 0 0) where_ i) c = \sum_(l < n) t_get (pwa_d_dl n tl where_) [:: i; nat_of_ord l; c] * t l c.
Proof.
  move=> T I B. rewrite (@pwa_sum where_ i c (fun l => t l c)) // /pwa_apply /=.
  case: (nth (0, 0, 0)%N tl _) => [[v0 v1] v2]. mring F.
Qed.
Lemma pwa_d_dx_iff (s t : nat -> nat -> F) v0 v1 v2 :
  triangle_derivative s t (v0, v1, v2) (fun r c => t_get (pwa_d_dx F) [:: 0; r; c]%N) <->
  forall r, (r < 2)%N -> t v1 r - t v0 r = s v1 r - s v0 r /\ t v2 r - t v0 r = s v2 r - s v0 r.
Proof.
  have S r (g : nat -> F) : (r < 2)%N -> \sum_(c < 2) t_get (pwa_d_dx F) [:: 0; r; nat_of_ord c]%N * g c = g r.
    move=> R. rewrite -[RHS](sum_pick g R). apply: eq_bigr => c _ /=. rewrite eq_sym. by case: eqP; rewrite ?mul1r ?mul0r.
  split.
  - move=> D r R. have A := D 0 0 1 0 r R. have B := D 0 0 0 1 r R.
    rewrite (S r (fun c => in_triangle s (v0, v1, v2) 1 0 c - in_triangle s (v0, v1, v2) 0 0 c) R) in A.
    rewrite (S r (fun c => in_triangle s (v0, v1, v2) 0 1 c - in_triangle s (v0, v1, v2) 0 0 c) R) in B.
    rewrite /in_triangle !subr0 subrr ?sub0r ?mul0r ?mul1r ?addr0 ?add0r in A.
    rewrite /in_triangle !subr0 subrr ?mul0r ?mul1r ?addr0 ?add0r in B. by split.
  - move=> E a b a' b' r R. rewrite (S r (fun c => in_triangle s (v0, v1, v2) a' b' c - in_triangle s (v0, v1, v2) a b c) R).
    have [E1 E2] := E r R. rewrite /in_triangle.
    have X (p : nat -> nat -> F) : (1 - a' - b') * p v0 r + a' * p v1 r + b' * p v2 r - ((1 - a - b) * p v0 r + a * p v1 r + b * p v2 r)
      = (a' - a) * (p v1 r - p v0 r) + (b' - b) * (p v2 r - p v0 r) by mring F.
    by rewrite !X E1 E2.
Qed.
End Pwa.

(** ** Model driven transforms *)
Section Mdt.
(** The chain rule for a warp whose coordinate r of point i is linear in the coordinates r of the landmarks. *)
Lemma mdt_d_dp_ok n L P (dW dX jac : tensor F) : t_shape dW = [:: n; L; 2%N] -> t_shape dX = [:: L; P; 2%N] ->
  mdt_d_dp dW dX = Ok jac -> t_shape jac = [:: n; P; 2%N] /\
  forall (X : nat -> (nat -> F) -> nat -> F) p i (W : (nat -> nat -> F) -> nat -> F),
    (forall l, (l < L)%N -> derivative P 2 (X l) p (fun k r => t_get dX [:: l; k; r])) ->
    (forall y r, W y r = \sum_(l < L) t_get dW [:: i; nat_of_ord l; r] * y l r) ->
    derivative P 2 (fun p => W (fun l => X l p)) p (fun k r => t_get jac [:: i; k; r]).
Proof.
  move=> A B. rewrite /mdt_d_dp A B eqxx /= => -[<-]. split=> // X p i W D E h r R.
  rewrite !E (eq_bigr (fun l : 'I_L => t_get dW [:: i; nat_of_ord l; r] * X l p r + t_get dW [:: i; nat_of_ord l; r] * (\sum_(k < P) h k * t_get dX [:: nat_of_ord l; nat_of_ord k; r]))).
    rewrite big_split /=. congr (_ + _).
    rewrite (eq_bigr (fun l : 'I_L => \sum_(k < P) h k * (t_get dW [:: i; nat_of_ord l; r] * t_get dX [:: nat_of_ord l; nat_of_ord k; r]))).
      by rewrite exchange_big /=; apply: eq_bigr => k _; rewrite mulr_sumr.
    move=> l _. rewrite mulr_sumr. apply: eq_bigr => k _. by rewrite mulrCA.
  move=> l _. by rewrite (D l (ltn_ord l) h r R) mulrDr.
Qed.
Lemma pdm_derivative N (m : lmodel F N) l w : (l < N)%N ->
  derivative (size (active m)) 2 (fun w r => at_ (m_mean m) l r + \sum_(k < size (active m)) w k * at_ (nth 0 (active m) k) l r) w
    (fun k r => t_get (pdm_d_dp m) [:: l; k; r]).
Proof.
  move=> Ll h r R /=. rewrite -addrA -big_split /=. congr (_ + _). apply: eq_bigr => k _. by rewrite mulrDl.
Qed.
Lemma mdt_Jp_never (a b : tensor F) : mdt_Jp a b = Err ValueError.
Proof. by rewrite /mdt_Jp einsum_eilk. Qed.

Lemma global_Jp_total n q b a (dq db dx : tensor F) (g : sim F) : t_shape dq = [:: n; q; 2%N] -> t_shape db = [:: n; b; 2%N] ->
  t_shape dx = [:: a; 2; 2]%N -> a = 1%N \/ a = n ->
  exists2 H : 'M[F]_(q + b), (exists W : 'I_n -> 'I_(q + b) -> 'I_2 -> F,
      (forall i k c, W i (lshift b k) c = t_get dq [:: nat_of_ord i; nat_of_ord k; nat_of_ord c]) /\
      (forall j l, H j l = \sum_i \sum_c W i j c * W i l c)) &
    if H \in unitmx then exists2 J, global_Jp dq db g dx = Ok J & t_shape J = [:: (q + b)%N; (q + b)%N] else global_Jp dq db g dx = Err LinAlgError.
Proof.
  move=> Sq Sb Sa An. rewrite /global_Jp.
  have [W0 -> [SW0 [L0 R0]]] := hstack_ok Sq Sb. cbn [bind].
  have [Db -> [SDb VDb]] := @einsum_idj n b (affine_d_dx 2 (sim_linear g)) db erefl Sb. cbn [bind].
  have [W1 -> [SW1 [L1 R1]]] := hstack_ok Sq SDb. cbn [bind].
  have [X -> [SX VX]] := @einsum_ilk n a (q + b) dx W0 Sa SW0 An. cbn [bind].
  rewrite /jp_from. have [J -> [SJ VJ]] := einsum_jl SW1 SX. have [H -> [SH VH]] := einsum_jl SW1 SW1. cbn [bind].
  exists (tmx (q + b) (q + b) H).
    exists (fun i k c => t_get W1 [:: nat_of_ord i; nat_of_ord k; nat_of_ord c]). split.
    - move=> i k c. by rewrite /= L1.
    - move=> j l. by rewrite mxE VH.
  rewrite /np_solve_t SH SJ !eqxx /=. case U : (tmx _ _ H \in unitmx) => //. by eexists.
Qed.
Lemma tmx_gram n p (A B : tensor F) T : t_shape A = [:: n; p; 2%N] -> t_shape B = [:: n; p; 2%N] ->
  (forall i k c, (i < n)%N -> (k < p)%N -> (c < 2)%N -> t_get A [:: i; k; c] = t_get B [:: i; k; c]) ->
  einsum [:: "ijk"%string; "ilk"%string] "jl" [:: A; B] = Ok T ->
  exists2 H, einsum [:: "ijk"%string; "ilk"%string] "jl" [:: A; A] = Ok H & t_shape H = [:: p; p] /\ t_shape T = [:: p; p] /\ tmx p p T = tmx p p H.
Proof.
  move=> SA SB E. have [T' -> [ST VT]] := einsum_jl SA SB. have [H -> [SH VH]] := einsum_jl SA SA. move=> [<-]. exists H => //. split=> //. split=> //.
  apply/matrixP => j l. rewrite !mxE VT // VH //. apply: eq_bigr => i _. apply: eq_bigr => k _. by rewrite (E i l k).
Qed.
(** The update is the plain sum of the parameters when neither the global transform nor the warp deforms the points. *)
Lemma compose_identity n q b (dq db : tensor F) (v delta : seq F) (g : sim F) : t_shape dq = [:: n; q; 2%N] -> t_shape db = [:: n; b; 2%N] ->
  s_a g = 0 -> s_b g = 0 -> size v = (q + b)%N -> size delta = (q + b)%N ->
  compose_with (global_Jp dq db g (pwa_d_dx F)) v delta = Ok [seq x.1 + x.2 | x <- zip v delta] \/
  compose_with (global_Jp dq db g (pwa_d_dx F)) v delta = Err LinAlgError.
Proof.
  move=> Sq Sb A B Sv Sd. rewrite /global_Jp.
  have [W0 -> [SW0 [L0 R0]]] := hstack_ok Sq Sb. cbn [bind].
  have [Db -> [SDb VDb]] := @einsum_idj n b (affine_d_dx 2 (sim_linear g)) db erefl Sb. cbn [bind].
  have [W1 -> [SW1 [L1 R1]]] := hstack_ok Sq SDb. cbn [bind].
  have [X -> [SX VX]] := @einsum_ilk n 1 (q + b) (pwa_d_dx F) W0 erefl SW0 (or_introl erefl). cbn [bind].
  rewrite /jp_from.
  have EQ i k c : (i < n)%N -> (k < q + b)%N -> (c < 2)%N -> t_get W1 [:: i; k; c] = t_get X [:: i; k; c].
    move=> Hi Hk Hc. rewrite VX //.
    have -> : t_get (pwa_d_dx F) [:: (if 1%N == 1%N then 0%N else i); 0; c]%N + t_get (pwa_d_dx F) [:: (if 1%N == 1%N then 0%N else i); 1; c]%N = 1.
      by case: c Hc => [|[|c]] //= _; rewrite ?addr0 ?add0r.
    rewrite mul1r. case: (ltnP k q) => Kq; first by rewrite L1 // L0.
    rewrite -(subnKC Kq) R1 R0 VDb //; last by rewrite ltn_subLR.
    have -> : t_get (affine_d_dx 2 (sim_linear g)) [:: 0; 0; c]%N + t_get (affine_d_dx 2 (sim_linear g)) [:: 0; 1; c]%N = 1.
      case: c Hc => [|[|c]] //= _; rewrite /sim_linear /= A B ?oppr0 ?addr0 ?add0r //.
    by rewrite mul1r.
  have [J EJ [SJ VJ]] := einsum_jl SW1 SX. rewrite EJ. cbn [bind].
  have [H EH [SH [SJ' TJ]]] := tmx_gram SW1 SX EQ EJ. rewrite EH. cbn [bind].
  rewrite /np_solve_t SH SJ !eqxx /=. case: ifP => U; last by right.
  left. rewrite TJ mulVmx //. cbn [bind]. rewrite /compose_with /= Sd Sv !eqxx /=. congr (Ok _).
  apply: (@eq_from_nth _ 0).
    by rewrite size_map size_iota size_map size_zip Sv Sd minnn.
  move=> i. rewrite size_map size_iota => I. rewrite (nth_map 0%N) ?size_iota // nth_iota // add0n.
  rewrite (nth_map (0, 0)) ?size_zip ?Sv ?Sd ?minnn // nth_zip ?Sv ?Sd //=. congr (_ + _).
  rewrite -[RHS](sum_pick (fun j => nth 0 delta j) I). apply: eq_bigr => j _.
  rewrite insubT valK mxE -val_eqE /= eq_sym. by case: eqP; rewrite ?mul1r ?mul0r.
Qed.
End Mdt.

(** ** Thin plate splines *)
Section Tps.
Variable n : nat.
Variable K : 'M[F]_n.
Variable source : 'M[F]_(n, 2).
Notation P_of := (P_of source).
Notation L_of := (L_of K source).
Lemma pseudo_col (c : 'I_2) : L_of *m delta_mx (rshift n (lift 0 c)) 0 = pseudo_target source c + col_mx 0 (P_of^T *m 0).
Proof.
  rewrite mulmx0 col_mx0 addr0 -colE. apply/colP => r. rewrite mxE. case: (split_ordP r) => r' ->.
  - rewrite block_mxEur /pseudo_target col_mxEu !mxE /=. congr (source _ _). by apply: val_inj; rewrite /= inordK // /bump leq0n add1n ltn_ord.
  - by rewrite block_mxEdr /pseudo_target col_mxEd !mxE.
Qed.
Lemma inv_pseudo (c : 'I_2) : L_of \in unitmx -> invmx L_of *m pseudo_target source c = delta_mx (rshift n (lift 0 c)) 0.
Proof. move=> U. have := pseudo_col c. rewrite mulmx0 col_mx0 addr0 => <-. by rewrite mulKmx. Qed.
Lemma dL_pick (dK : 'M[F]_n) i c : dL_dl dK i c *m delta_mx (rshift n (lift 0 c)) 0 = - delta_mx (lshift 3 i) 0 :> 'cV[F]_(n + 3).
Proof.
  rewrite -colE. apply/colP => r. rewrite mxE. case: (split_ordP r) => r' ->.
  - by rewrite block_mxEur !mxE !eqxx !andbT.
  - by rewrite block_mxEdr !mxE eq_rlshift oppr0.
Qed.
Lemma tps_d_dl_E dK (k : 'rV[F]_(n + 3)) i c : L_of \in unitmx -> tps_d_dl L_of source dK k i c = (k *m invmx L_of) 0 (lshift 3 i).
Proof.
  move=> U. rewrite /tps_d_dl mulmxN mulNmx -!mulmxA inv_pseudo // dL_pick !mulmxN opprK mulmxA -colE. by rewrite mxE.
Qed.
Lemma tps_apply_E (t : 'M[F]_(n, 2)) (k : 'rV[F]_(n + 3)) c : tps_apply L_of t k 0 c = \sum_i (k *m invmx L_of) 0 (lshift 3 i) * t i c.
Proof.
  rewrite /tps_apply /tps_coefficients mulmxA mxE big_split_ord /= [X in _ + X]big1 ?addr0.
  - by apply: eq_bigr => i _; rewrite col_mxEu.
  - by move=> i _; rewrite col_mxEd [X in _ * X]mxE mulr0.
Qed.
Lemma tps_d_dl_ok dK (k : 'rV[F]_(n + 3)) (t h : 'M[F]_(n, 2)) c : L_of \in unitmx ->
  tps_apply L_of (t + h) k 0 c = tps_apply L_of t k 0 c + \sum_i tps_d_dl L_of source dK k i c * h i c.
Proof.
  move=> U. rewrite !tps_apply_E -big_split /=. apply: eq_bigr => i _. by rewrite tps_d_dl_E // [(t + h) i c]mxE mulrDr.
Qed.

(** The derivative with respect to the point. *)
Lemma of_mx_E p q (m : 'M[F]_(p, q)) (i : 'I_p) (j : 'I_q) : t_get (of_mx m) [:: nat_of_ord i; nat_of_ord j] = m i j.
Proof. by rewrite /= !valK. Qed.
Lemma tps_d_dx_mismatch (coef : 'M[F]_(n + 3, 2)) m g : m != n -> tps_d_dx coef m g = Err ValueError.
Proof.
  move=> M. rewrite /tps_d_dx. set A := of_mx coef. set B := cube _ _ _ _.
  have := @einsum_klj n m A B erefl erefl. by rewrite (negbTE M).
Qed.
Lemma tps_d_dx_E (coef : 'M[F]_(n + 3, 2)) g : exists2 T, tps_d_dx coef n g = Ok T & t_shape T = [:: n; 2; 2]%N /\
  forall k (l j : 'I_2), (k < n)%N ->
    t_get T [:: k; nat_of_ord l; nat_of_ord j] = \sum_(i < n) coef (lshift 3 i) j * g (nat_of_ord i) k (nat_of_ord l) + coef (rshift n (lift 0 l)) j.
Proof.
  rewrite /tps_d_dx. set A := of_mx coef. set B := cube _ _ _ _.
  have := @einsum_klj n n A B erefl erefl. rewrite eqxx => -[T -> [ST V]]. exists T => //. split=> // k l j Kn.
  rewrite V // (eq_bigr (fun i : 'I_(n + 3) => coef i j * t_get B [:: nat_of_ord i; k; nat_of_ord l])); last by move=> i _; rewrite of_mx_E.
  rewrite big_split_ord. congr (_ + _).
  - apply: eq_bigr => i _. by rewrite /= ltn_ord.
  - have N3 m : (n + m < n)%N = false by rewrite ltnNge leq_addr.
    have [->|->] := ord2 l; rewrite !big_ord_recl big_ord0 /= /bump /= !N3 !eqn_add2l /= !mulr0 ?mulr1 ?addr0 ?add0r; congr (coef _ _); by apply: val_inj.
Qed.
End Tps.
End P.

Section Cache.
Variables (A : eqType) (B : Type) (d_dl : A -> B).
(** The cached value belongs to the cached array. *)
Definition cache_ok (heap : nat -> A) (c : cached B) : Prop :=
  match c_points c with Some r => c_dW_dl c = Some (d_dl (heap r)) | None => True end.
Lemma cache_call_ok heap r c : cache_ok heap c ->
  c_dW_dl (cache_call d_dl heap r c) = Some (d_dl (heap r)) /\ cache_ok heap (cache_call d_dl heap r c).
Proof.
  rewrite /cache_ok /cache_call. case: c => [[p|] w] //= E. case: eqP => [H|_] //=. by rewrite -H.
Qed.
Lemma cache_run_ok es : forall heap (c : cached B) passed, cache_ok heap c -> (forall r, c_points c = Some r -> r \in passed) ->
  undisturbed passed es -> forall wa, List.In wa (cache_run d_dl heap c es) -> wa.1 = Some (d_dl wa.2).
Proof.
  elim: es => [|[r|r v] es IH] heap c passed K S U wa //=.
  - have [E K'] := cache_call_ok r K. case=> [<-|I]; first by rewrite E.
    apply: (IH _ _ (r :: passed) K' _ U _ I) => r' R'. rewrite in_cons. move: R'. rewrite /cache_call. case C : (c_points c) => [p|] /=.
    + case: ifP => _; first by move=> R'; rewrite (S _ R') orbT. by move=> [->]; rewrite eqxx.
    + by move=> [->]; rewrite eqxx.
  - move: U => /= [N U] I. apply: (IH _ _ passed _ S U _ I). move: K S. rewrite /cache_ok. case: (c_points c) => [p|] // -> S.
    case: eqP => // E. by move: N; rewrite -E (S _ erefl).
Qed.
End Cache.
