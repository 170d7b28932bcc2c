(** Fitters that share the shape models of one constrained local model. *)
From Verif.Model Require Import Py Einsum LinAlg ModelInstance Jacobian Updates.
From Verif.Spec Require Import ModelInstance.
From Verif.Model Require Import ClmFitter.
From Verif.Spec Require Import ClmFitter.
From Verif.Proofs Require Import ModelInstance Jacobian.
From Coq Require List.
From mathcomp Require Import all_ssreflect all_algebra.
Set Implicit Arguments.
Unset Strict Implicit.
Unset Printing Implicit Defensive.
Import GRing.Theory Num.Theory.
Local Open Scope ring_scope.

Section P.
Variable F : realFieldType.
Variables (N : nat) (Image : Type).
Notation shape := 'M[F]_(N, 2).
Variable align : shape -> shape -> sim F.
Variable noise_variance : lmodel F N -> F.
Variable eigenvalues : lmodel F N -> seq F.
Variable displacement : nat -> Image -> shape -> res 'cV[F]_(N * 2).
Variable next : nat -> Image -> shape -> shape.
Variable exceeds : shape -> shape -> bool.
Notation opdm := (opdm F N).

(** ** What a fit reads of a shape model *)
Definition static (d : opdm) := (o_model d, o_simcomps d).
Lemma regenerate_static (d : opdm) : static (opdm_regenerate d).1 = static d.
Proof. by rewrite /opdm_regenerate; case: opdm_generate. Qed.
Lemma update_static s q (d : opdm) : static (opdm_update_global align s q d).1 = static d.
Proof. by rewrite /opdm_update_global; case: instance. Qed.
Lemma sync_static s (d : opdm) : static (opdm_sync_state align s d).1 = static d.
Proof.
  rewrite /opdm_sync_state. case E : opdm_update_global => [d1 r]. have := update_static s (project (o_similarity d) (o_target d)) d. rewrite E /=.
  case: r E => [_|e] _ //. case: sim_pinv_apply => [t|e] // <-. by rewrite regenerate_static.
Qed.
Lemma target_static s t (d : opdm) : static (opdm_set_target align s t d).1 = static d.
Proof. by rewrite /opdm_set_target sync_static. Qed.
Lemma vector_static s v (d : opdm) : static (opdm_from_vector align s v d).1 = static d.
Proof.
  rewrite /opdm_from_vector. case E : opdm_update_global => [d1 r]. have := update_static s (take (size (o_simweights d)) v) d. rewrite E /=.
  case: r E => [_|e] _ // <-. by rewrite regenerate_static.
Qed.
Lemma clm_static P s b (J : 'M[F]_(N * 2, P)) w (d : opdm) e : static (clm_update align s b J w d e).1 = static d.
Proof. rewrite /clm_update. case: clm_step => [dp|x] //. exact: vector_static. Qed.
Lemma step_static k img b (a : alg F N) (d : opdm) : static (alg_step align displacement k img b a d).1 = static d.
Proof. rewrite /alg_step. case: displacement => [e|x] //. case: ifP => // _. exact: clm_static. Qed.
Lemma loop_static m : forall go k img b (a : alg F N) (d : opdm) ss ps,
  static (alg_loop align displacement exceeds m go k img b a d ss ps).1 = static d.
Proof.
  elim: m => [|m IH] go k img b a d ss ps //=. case: go => //.
  case E : alg_step => [d1 r]. have := step_static k img b a d. rewrite E /= => <-. case: r E => [_|e] _ //; exact: IH.
Qed.
Lemma run_static k img s m b (a : alg F N) (d : opdm) : static (alg_run align displacement exceeds k img s m b a d).1 = static d.
Proof.
  rewrite /alg_run. case E : opdm_set_target => [d1 r]. have := target_static (src d) s d. rewrite E /= => <-.
  case: r E => [_|e] _ //; exact: loop_static.
Qed.

(** Setting the target forgets everything else about the shape model. *)
Lemma target_forgets s t (d d' : opdm) : static d = static d' ->
  (opdm_set_target align s t d).2 = (opdm_set_target align s t d').2 /\
  ((opdm_set_target align s t d).2 = Ok tt -> opdm_set_target align s t d = opdm_set_target align s t d').
Proof.
  case: d => m w tg g sc q; case: d' => m' w' tg' g' sc' q' [-> ->].
  rewrite /opdm_set_target /opdm_sync_state /opdm_update_global /o_similarity /=.
  rewrite instance_ok ?project_size //=. case: sim_pinv_apply => [t0|e] //=.
Qed.
Lemma run_forgets k img s m b (a : alg F N) (d d' : opdm) : static d = static d' ->
  (alg_run align displacement exceeds k img s m b a d).2 = (alg_run align displacement exceeds k img s m b a d').2.
Proof.
  move=> S. rewrite /alg_run. have -> : src d' = src d by case: S => E _; rewrite /src E.
  have [A B] := target_forgets (src d) s S. move: A B.
  case: (opdm_set_target align (src d) s d) => [d1 r1]; case: (opdm_set_target align (src d) s d') => [d2 r2] /= <-.
  case: r1 => [[]|e] // /(_ erefl) [->]; reflexivity.
Qed.

(** ** Fits *)
Notation fit_from := (fit_from align displacement next exceeds).
Lemma fit_static c algs : forall k s (ds : seq opdm), [seq static d | d <- (fit_from k c s algs ds).1] = [seq static d | d <- ds].
Proof.
  elim: algs => [|a algs IH] k s [|d ds] //=.
  case E : alg_run => [d1 r]. have := run_static k (c_image c) s (nth 0%N (c_max_iters c) k) (c_map c) a d. rewrite E /= => S.
  case: r E => [r|e] _ /=; last by rewrite S.
  case G : fit_from => [ds1 rs] /=. rewrite S. congr (_ :: _).
  have := IH k.+1 (next k (c_image c) (last s (r_shapes r))) ds. by rewrite G.
Qed.
Lemma fit_forgets c algs : forall k s (ds ds' : seq opdm), [seq static d | d <- ds] = [seq static d | d <- ds'] ->
  (fit_from k c s algs ds).2 = (fit_from k c s algs ds').2.
Proof.
  elim: algs => [|a algs IH] k s [|d ds] [|d' ds'] //= [M C R].
  have S : static d = static d' by rewrite /static M C.
  have := run_forgets k (c_image c) s (nth 0%N (c_max_iters c) k) (c_map c) a S.
  case: alg_run => [d1 r1]; case: alg_run => [d2 r2] /= <-. case: r1 => [r|e] //=.
  have := IH k.+1 (next k (c_image c) (last s (r_shapes r))) _ _ R.
  case: fit_from => [x1 y1]; case: fit_from => [x2 y2] /= -> //.
Qed.

(** ** Constructions *)
Lemma active_static s n (d : opdm) : (0 < n)%N -> effective d n = m_active (o_model d) ->
  static (opdm_set_active align s n d).1 = static d.
Proof.
  rewrite /opdm_set_active /set_active /effective => P E. rewrite (gtn_eqF P) E sync_static /static /=.
  by case: (o_model d).
Qed.
Lemma components_static : forall (ds : seq opdm) ns,
  (forall j d n, List.nth_error ds j = Some d -> List.nth_error ns j = Some n -> (0 < n)%N -> effective d n = m_active (o_model d)) ->
  [seq static d | d <- (set_components align ds ns).1] = [seq static d | d <- ds].
Proof.
  elim=> [|d ds IH] [|n ns] //= H.
  case E : opdm_set_active => [d1 r].
  have S : static d1 = static d.
    case: (posnP n) => [Z|P]; first by move: E; rewrite Z /opdm_set_active /set_active /= => -[<-].
    have := active_static (src d) P (H 0%N d n erefl erefl P). by rewrite E.
  case: r E => [_|e] _ /=; last by rewrite S.
  have := IH ns (fun j => H j.+1). case: set_components => [ds1 r1] /= ->. by rewrite S.
Qed.
Notation step := (step align noise_variance eigenvalues displacement next exceeds).
Notation session := (session align noise_variance eigenvalues displacement next exceeds).
Notation outcome := (outcome align displacement next exceeds).
Definition statics (w : world F N) := [seq static d | d <- w_models w].
Lemma step_statics (o : op F N Image) w : keeps_counts (w_models w) o -> statics (step o w) = statics w.
Proof.
  case: o => [[ns|]|i c] /= K; rewrite /statics.
  - rewrite /build. case: ifP => // _. have := components_static K. case: set_components => [ds [u|e]] //=.
  - by rewrite /build /=.
  - case: List.nth_error => [f|] //=. exact: fit_static.
Qed.
Lemma step_fitters (o : op F N Image) w i f : List.nth_error (w_fitters w) i = Some f -> List.nth_error (w_fitters (step o w)) i = Some f.
Proof.
  move=> E. case: o => [n|j c] /=.
  - case: build => [ds r] /=. elim: (w_fitters w) i E => [|x xs IH] [|i] //=. exact: IH.
  - by case: (List.nth_error (w_fitters w) j) => [g|] //=.
Qed.
Lemma same_outcome w w' i f c : statics w = statics w' -> List.nth_error (w_fitters w) i = Some f ->
  List.nth_error (w_fitters w') i = Some f -> outcome i c w = outcome i c w'.
Proof. move=> S E E'. rewrite /outcome E E'. exact: fit_forgets. Qed.
Lemma session_keeps os : forall w i f c, all_along step os w -> List.nth_error (w_fitters w) i = Some f ->
  outcome i c (session os w) = outcome i c w.
Proof.
  elim: os => [|o os IH] w i f c //= [K A] E. rewrite (IH _ _ f) //; last exact: step_fitters.
  apply: (same_outcome c (step_statics K) (step_fitters o E) E).
Qed.
Lemma only_fits_along os : forall w, only_fits os -> all_along step os w.
Proof.
  elim: os => [|o os IH] w H //=. split; last by apply: IH => o' I; apply: H; right.
  have [i [c ->]] := H o (or_introl erefl). by [].
Qed.

(** ** Another number of components *)
Lemma alg_params (d : opdm) a : alg_new noise_variance eigenvalues d = Ok a -> a_P a = (size (o_simcomps d) + size (active (o_model d)))%N.
Proof.
  rewrite /alg_new /opdm_d_dp. have S : t_shape (reshape_comps (o_simcomps d)) = [:: N; size (o_simcomps d); 2%N] by [].
  have [jac -> [Sh _]] := global_d_dp_ok (o_model d) (o_sim d) S. cbn [bind]. rewrite Sh /=.
  case: ifP => // _. case: clm_precompute => [p|e] //= [<-]. by [].
Qed.
Lemma target_sizes s t (d d' : opdm) : opdm_set_target align s t d = (d', Ok tt) ->
  size (opdm_vector d') = (size (o_simcomps d) + size (active (o_model d)))%N /\ o_model d' = o_model d.
Proof. move=> /opdm_sync_ok [_ [_ [W [Q [M C]]]]]. by rewrite size_cat W Q C M /=. Qed.
Lemma run_wrong k img s m b (a : alg F N) (d d' : opdm) e : opdm_set_target align (src d) s d = (d', Ok tt) ->
  displacement k img (o_target d') = Ok e -> (size (o_simcomps d) + size (active (o_model d)) != a_P a)%N ->
  (0 < m)%N -> (alg_run align displacement exceeds k img s m b a d).2 = Err ValueError.
Proof.
  move=> E D P. case: m => // m _. rewrite /alg_run E /= /alg_step D. have [-> _] := target_sizes E. by rewrite (negbTE P).
Qed.
Lemma active_size (m : lmodel F N) n m' : set_active m n = Ok m' -> size (active m') = minn n (size (m_comps m)) /\ m_comps m' = m_comps m.
Proof.
  rewrite /set_active. case: eqP => // _ [<-]. rewrite /active /=. split=> //. rewrite size_take.
  case: ltnP => // H. apply/eqP. by rewrite eqn_leq H geq_minr.
Qed.
Lemma set_active_static s n (d : opdm) : (0 < n)%N -> exists m, static (opdm_set_active align s n d).1 = (m, o_simcomps d) /\
  size (active m) = effective d n /\ m_comps m = m_comps (o_model d).
Proof.
  move=> P. rewrite /opdm_set_active. case E : (set_active (o_model d) n) => [m|e].
    exists m. rewrite sync_static. split=> //. exact: (active_size E).
  by move: E; rewrite /set_active (gtn_eqF P).
Qed.
(** What a construction does at the first scale. *)
Lemma build_first (d : opdm) ds n ns : (0 < n)%N -> exists (d' : opdm) ds' m,
  (build align noise_variance eigenvalues (Some (n :: ns)) (d :: ds)).1 = d' :: ds' /\
  (size ns = size ds -> static d' = (m, o_simcomps d) /\ size (active m) = effective d n /\ m_comps m = m_comps (o_model d)) /\
  (forall f, (build align noise_variance eigenvalues (Some (n :: ns)) (d :: ds)).2 = Ok f ->
     exists a f', f = a :: f' /\ alg_new noise_variance eigenvalues d' = Ok a).
Proof.
  move=> P. have [m H] := set_active_static (src d) d P. move: H. rewrite /build /= eqSS.
  case: ifP => S; last first.
    move=> _. exists d, ds, m. split=> //. split=> //. by move=> Q; rewrite Q eqxx in S.
  case E : opdm_set_active => [d1 r] /= H. case: r E => [u|e] E.
    case: set_components => [ds1 r1]. case: r1 => [_|e] /=.
      exists d1, ds1, m. split=> //. split=> // f. rewrite /=. case A : alg_new => [a|x] //=.
      case: mapM => //= f' [<-]. by exists a, f'.
    by exists d1, ds1, m.
  by exists d1, ds, m.
Qed.
Notation build := (build align noise_variance eigenvalues).
Lemma build_size (d : opdm) ds n ns f : (build (Some (n :: ns)) (d :: ds)).2 = Ok f -> size ns = size ds.
Proof. rewrite /build /= eqSS. by case: eqP. Qed.
Lemma fit_first c (a : alg F N) algs k s (d : opdm) ds e :
  (alg_run align displacement exceeds k (c_image c) s (nth 0%N (c_max_iters c) k) (c_map c) a d).2 = Err e ->
  (fit_from k c s (a :: algs) (d :: ds)).2 = Err e.
Proof. rewrite /=. by case: alg_run => [d1 [r|x]] //= [->]. Qed.
Lemma nth_last (T : Type) (xs : seq T) x : List.nth_error (xs ++ [:: x]) (size xs) = Some x.
Proof. by elim: xs. Qed.
Lemma other_count (w : world F N) (d : opdm) ds n ns m ms f c : w_models w = d :: ds -> (0 < n)%N -> (0 < m)%N ->
  (build (Some (n :: ns)) (w_models w)).2 = Ok f -> size ms = size ds -> effective d n <> effective d m ->
  let w2 := session [:: Build _ _ _ (Some (n :: ns)); Build _ _ _ (Some (m :: ms))] w in
  (forall x, List.nth_error (w_models w2) 0 = Some x -> exists d' e,
     opdm_set_target align (src x) (c_shape c) x = (d', Ok tt) /\ displacement 0 (c_image c) (o_target d') = Ok e) ->
  (0 < nth 0%N (c_max_iters c) 0)%N ->
  outcome (size (w_fitters w)) c w2 = Err ValueError.
Proof.
  move=> W Pn Pm B S NE w2 T It.
  have Sn := build_size (f := f) (d := d) (n := n) (ns := ns) (ds := ds). rewrite -W in Sn. move/(_ B): Sn => Sn.
  have [d1 [ds1 [m1 [E1 [H1 A1]]]]] := build_first d ds ns Pn. rewrite -W in E1 A1.
  have {H1} [S1 [Z1 C1]] := H1 Sn. have [a [f' [Ef Ea]]] := A1 f B. subst f.
  have [d2 [ds2 [m2 [E2 [H2 _]]]]] := build_first d1 ds1 ms Pm.
  have L1 : size ds1 = size ds.
    have H : size (build (Some (n :: ns)) (w_models w)).1 = size (w_models w).
      rewrite /build W /= eqSS Sn eqxx. case: opdm_set_active => [x [u|e]] //=.
      have Sc : forall (l : seq opdm) k, size (set_components align l k).1 = size l.
        elim=> [|y l IH] [|z k] //=. case: opdm_set_active => [x' [u'|e']] //=. have := IH k. by case: set_components => [p q] /= ->.
      have := Sc ds ns. by case: set_components => [p [q|q]] /= ->.
    by move: H; rewrite E1 W /= => -[].
  have {H2} [S2 [Z2 C2]] := H2 (etrans S (esym L1)).
  have M2 : exists fs, w2 = World (d2 :: ds2) fs /\ List.nth_error fs (size (w_fitters w)) = Some (a :: f').
    rewrite /w2 /=. move: E1 B. case: (build (Some (n :: ns)) (w_models w)) => [x y] /= -> ->.
    move: E2. case: (build (Some (m :: ms)) (d1 :: ds1)) => [x' y'] /= ->. eexists. split; first reflexivity.
    have Q (T' : Type) (l l' : seq T') z k : List.nth_error l k = Some z -> List.nth_error (l ++ l') k = Some z by elim: l k => [|u l IH] [|k] //=; exact: IH.
    apply: Q. exact: nth_last.
  have [fs [Ew N2]] := M2. rewrite Ew in T |- *. rewrite /outcome /= N2.
  have [d' [e [ET ED]]] := T d2 erefl. rewrite /fit. apply: fit_first.
  apply: (run_wrong (c_map c) ET ED) => //. rewrite (alg_params Ea).
  have [M1 K1] : o_model d1 = m1 /\ o_simcomps d1 = o_simcomps d by case: S1.
  have [M2' K2] : o_model d2 = m2 /\ o_simcomps d2 = o_simcomps d1 by case: S2.
  rewrite K2 M2' M1 eqn_add2l Z1 Z2. apply/eqP => E. apply: NE. rewrite -E /effective M1 C1. by [].
Qed.
(** ** Constructions in the same pose *)
Lemma alg_pose (d d' : opdm) : static d = static d' -> s_a (o_sim d) = s_a (o_sim d') -> s_b (o_sim d) = s_b (o_sim d') ->
  alg_new noise_variance eigenvalues d = alg_new noise_variance eigenvalues d'.
Proof.
  case: d => m w t g sc q; case: d' => m' w' t' g' sc' q' [-> ->] /= A B.
  rewrite /alg_new /opdm_d_dp /=. congr bind. rewrite /global_d_dp /sim_linear /=. by rewrite A B.
Qed.
End P.
