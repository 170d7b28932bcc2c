(** Two supervised descent algorithms that work on corresponding data stay in correspondence. *)
From Verif.Model Require Import Py Result SdmTrain SdmAlgorithm.
From Verif.Spec Require Import Moves Renumber.
From Coq Require List.
From mathcomp Require Import all_ssreflect.
Set Implicit Arguments.
Unset Strict Implicit.
Unset Printing Implicit Defensive.
Local Notation map := List.map.

Lemma nth_res_map (A B : Type) (f : A -> B) l i : nth_res (map f l) i = map_res f (nth_res l i).
Proof. by rewrite /nth_res List.nth_error_map; case: List.nth_error. Qed.
Lemma set_row_map (A B : Type) (f : A -> B) v : forall k a, set_row k (f v) (map (omap f) a) = map_res (map (omap f)) (set_row k v a).
Proof. elim=> [|k IH] [|x a] //=. rewrite IH. by case: set_row. Qed.
Lemma mapM_map (A B A' B' : Type) (f : A -> A') (g : B -> B') (h : A -> res B) (h' : A' -> res B') l :
  (forall x, h' (f x) = map_res g (h x)) -> mapM h' (map f l) = map_res (map g) (mapM h l).
Proof. move=> H. elim: l => [|x l IH] //=. rewrite H. case: (h x) => [y|e] //=. rewrite IH. by case: mapM. Qed.
Lemma vstack_map (A B : Type) (f : A -> B) rows : vstack (map (map f) rows) = map_res (map f) (vstack rows).
Proof. case: rows => [|r rows] //. rewrite /vstack /map_res. by rewrite List.concat_map. Qed.

Section Simulation.
Context {S V I X R M A E : Type}.
Variables vadd vsub : V -> V -> V.
Variables set_target set_target' : M -> S -> res M.
Variables from_vector from_vector' : M -> V -> res M.
Variable vec : M -> V.
Variable tgt : M -> S.
Variable patches : I -> S -> res X.
Variable build_appearance : nat -> list X -> res A.
Variable appearance_feature : A -> X -> res X.
Variables build_shape build_shape' : list S -> res M.
Variable reg_train : list X -> list (option V) -> res R.
Variable reg_increment : R -> list X -> list (option V) -> res R.
Variable reg_predict : R -> list X -> res (list V).
Variable reg_predict1 : R -> X -> res V.
Variable compute_error : S -> S -> S -> res E.
Variable garbage : V.
Notation train := (train vadd vsub set_target from_vector vec tgt patches build_appearance appearance_feature build_shape reg_train reg_increment reg_predict compute_error garbage).
Notation train' := (SdmAlgorithm.train vadd vsub set_target' from_vector' vec tgt patches build_appearance appearance_feature build_shape' reg_train reg_increment reg_predict compute_error garbage).
Notation fit := (fit vadd set_target from_vector vec tgt patches appearance_feature reg_predict1).
Notation fit' := (SdmAlgorithm.fit vadd set_target' from_vector' vec tgt patches appearance_feature reg_predict1).

(** How shapes, vectors (positions and displacements), images, patches and features correspond; which states of the shape
    model, regressors and appearance models correspond. *)
Variables (fS : S -> S) (fP fV : V -> V) (fI : I -> I) (fX fY : X -> X).
Variables (RM : M -> M -> Prop) (RR : R -> R -> Prop) (RA : A -> A -> Prop).
Hypothesis ADD : forall a b, vadd (fP a) (fV b) = fP (vadd a b).
Hypothesis SUB : forall a b, vsub (fP a) (fP b) = fV (vsub a b).
Hypothesis ST : forall m m' s, RM m m' -> both RM (set_target m s) (set_target' m' (fS s)).
Hypothesis FV : forall m m' v, RM m m' -> both RM (from_vector m v) (from_vector' m' (fP v)).
Hypothesis VEC : forall m m', RM m m' -> vec m' = fP (vec m).
Hypothesis TGT : forall m m', RM m m' -> tgt m' = fS (tgt m).
Hypothesis PA : forall im s, patches (fI im) (fS s) = map_res fX (patches im s).
Variable kd : kind.
Definition fF (x : X) : X := if k_appearance kd then fY x else fX x.
Hypothesis AF : k_appearance kd -> forall a a' x, RA a a' -> appearance_feature a' (fX x) = map_res fY (appearance_feature a x).
Definition RAo (a a' : option A) : Prop := match a, a' with Some a, Some a' => RA a a' | None, None => True | _, _ => False end.
Definition RMo (a a' : option M) : Prop := match a, a' with Some a, Some a' => RM a a' | None, None => True | _, _ => False end.

Lemma test_sim app app' im s : RAo app app' ->
  test_features patches appearance_feature kd app' (fI im) (fS s) = map_res fF (test_features patches appearance_feature kd app im s).
Proof.
  move=> H. rewrite /test_features PA /fF. case: patches => [x|e] //=. case K : k_appearance => //=.
  move: H. case: app => [a|]; case: app' => [a'|] //= H. exact: AF.
Qed.
Lemma features_sim app app' images current : RAo app app' ->
  training_features patches appearance_feature kd app' (map fI images) (map (map fS) current) =
  map_res (map fF) (training_features patches appearance_feature kd app images current).
Proof.
  move=> H. rewrite /training_features. case K : k_appearance.
    have Z : features_zip patches appearance_feature kd app' (map fI images) (map (map fS) current) =
             map_res (map (map fF)) (features_zip patches appearance_feature kd app images current).
      elim: images current => [|im images IH] [|ss current] //=. rewrite (mapM_map (g := fF) (h := test_features patches appearance_feature kd app im)).
        case: mapM => [xs|e] //=. rewrite IH. by case: features_zip.
      move=> s. exact: test_sim.
    rewrite Z. case: features_zip => [rows|e] //=. rewrite -List.concat_map List.map_map.
    by rewrite -(vstack_map fF) List.map_map.
  have Z : features_per_image patches (map fI images) (map (map fS) current) = map_res (map (map fF)) (features_per_image patches images current).
    elim: images current => [|im images IH] [|ss current] //=. rewrite (mapM_map (g := fF) (h := patches im)); last by move=> s; rewrite /fF K PA.
    case: mapM => [xs|e] //=. rewrite IH.
    have -> : vstack (map (fun x => [:: x]) (map fF xs)) = map_res (map fF) (vstack (map (fun x => [:: x]) xs)).
      by rewrite -(vstack_map fF) !List.map_map.
    case: vstack => [u|e] //=. by case: features_per_image.
  rewrite Z. case: features_per_image => [rows|e] //=. exact: vstack_map.
Qed.

Notation oP := (map (omap fP)).
Notation oV := (map (omap fV)).
Lemma deltas_inner_sim g : forall ss k m m' delta gt, RM m m' ->
  both (fun r r' => r'.1.1.1 = r.1.1.1 /\ RM r.1.1.2 r'.1.1.2 /\ r'.1.2 = oV r.1.2 /\ r'.2 = oP r.2)
    (deltas_inner vsub set_target vec g ss k m delta gt) (deltas_inner vsub set_target' vec (fP g) (map fS ss) k m' (oV delta) (oP gt)).
Proof.
  elim=> [|s ss IH] k m m' delta gt H //=. rewrite set_row_map. case: set_row => [gt1|e] //=.
  have := ST s H. case: set_target => [m1|e]; case: set_target' => [m1'|e'] //= H1.
  rewrite (VEC H1) SUB set_row_map. case: set_row => [d1|e] //=. exact: IH.
Qed.
Lemma deltas_outer_sim : forall gts cs k m m' delta gt, RM m m' ->
  both (fun r r' => RM r.1.1 r'.1.1 /\ r'.1.2 = oV r.1.2 /\ r'.2 = oP r.2)
    (deltas_outer vsub set_target vec gts cs k m delta gt) (deltas_outer vsub set_target' vec (map fS gts) (map (map fS) cs) k m' (oV delta) (oP gt)).
Proof.
  elim=> [|g gts IH] [|ss cs] k m m' delta gt H //=.
  have := ST g H. case: set_target => [m1|e]; case: set_target' => [m1'|e'] //= H1. rewrite (VEC H1).
  have := deltas_inner_sim (vec m1) ss k delta gt H1. case: deltas_inner => [[[[k1 m2] d2] g2]|e]; case: deltas_inner => [[[[k1' m2'] d2'] g2']|e'] //=.
  move=> [-> [H2 [-> ->]]]. exact: IH.
Qed.
Lemma deltas_sim gts cs m m' : RM m m' ->
  both (fun r r' => RM r.1.1 r'.1.1 /\ r'.1.2 = oV r.1.2 /\ r'.2 = oP r.2)
    (deltas vsub set_target vec m gts cs) (deltas vsub set_target' vec m' (map fS gts) (map (map fS) cs)).
Proof.
  move=> H. rewrite /deltas nth_res_map. case: nth_res => [c0|e] //=. rewrite !List.map_length.
  have NN (T : V -> V) n : List.repeat None n = map (omap T) (List.repeat None n) by elim: n => [|n IH] //=; rewrite -IH.
  have := deltas_outer_sim gts cs 0 (List.repeat None (length gts * length c0)) (List.repeat None (length gts * length c0)) H.
  by rewrite -!NN.
Qed.
Lemma estimates_inner_sim est gt : forall ss j m m' delta, RM m m' ->
  both (fun r r' => r'.1.1.1 = map fS r.1.1.1 /\ r'.1.1.2 = r.1.1.2 /\ RM r.1.2 r'.1.2 /\ r'.2 = oV r.2)
    (estimates_inner vadd vsub set_target from_vector vec tgt est gt ss j m delta)
    (estimates_inner vadd vsub set_target' from_vector' vec tgt (map fV est) (oP gt) (map fS ss) j m' (oV delta)).
Proof.
  elim=> [|s ss IH] j m m' delta H //=. rewrite nth_res_map. case: nth_res => [e|e] //=.
  have := ST s H. case: set_target => [m1|x]; case: set_target' => [m1'|x'] //= H1. rewrite (VEC H1) ADD.
  have := FV (vadd (vec m1) e) H1. case: from_vector => [m2|x]; case: from_vector' => [m2'|x'] //= H2.
  rewrite nth_res_map. case: nth_res => [g|x] //=.
  have -> : match omap fP g with Some gv => set_row j (vsub gv (fP (vadd (vec m1) e))) (oV delta) | None => Ok (oV delta) end =
            map_res oV (match g with Some gv => set_row j (vsub gv (vadd (vec m1) e)) delta | None => Ok delta end).
    case: g => [gv|] //=. by rewrite SUB set_row_map.
  case: (match g with Some gv => _ | None => _ end) => [d1|x] //=.
  have := IH (Datatypes.S j) m2 m2' d1 H2. case: estimates_inner => [[[[r1 j1] m3] d3]|x]; case: estimates_inner => [[[[r1' j1'] m3'] d3']|x'] //=.
  move=> [-> [-> [H3 ->]]]. by rewrite (TGT H2).
Qed.
Lemma estimates_sim est gt : forall cs j m m' delta, RM m m' ->
  both (fun r r' => r'.1.1 = map (map fS) r.1.1 /\ RM r.1.2 r'.1.2 /\ r'.2 = oV r.2)
    (estimates_outer vadd vsub set_target from_vector vec tgt est gt cs j m delta)
    (estimates_outer vadd vsub set_target' from_vector' vec tgt (map fV est) (oP gt) (map (map fS) cs) j m' (oV delta)).
Proof.
  elim=> [|ss cs IH] j m m' delta H //=. have := estimates_inner_sim est gt ss j delta H.
  case: estimates_inner => [[[[r1 j1] m3] d3]|x]; case: estimates_inner => [[[[r1' j1'] m3'] d3']|x'] //= [-> [-> [H3 ->]]].
  have := IH j1 m3 m3' d3 H3. case: estimates_outer => [[[r m4] d4]|x]; case: estimates_outer => [[[r' m4'] d4']|x'] //= [-> [H4 ->]] //.
Qed.

Hypothesis BA : k_appearance kd -> forall n rows, both RA (build_appearance n rows) (build_appearance n (map fX rows)).
Hypothesis BS : forall gts, both RM (build_shape gts) (build_shape' (map fS gts)).
Hypothesis RT : forall f d, both RR (reg_train f d) (reg_train (map fF f) (oV d)).
Hypothesis RI : forall r r' f d, RR r r' -> both RR (reg_increment r f d) (reg_increment r' (map fF f) (oV d)).
Hypothesis RP : forall r r' f, RR r r' -> reg_predict r' (map fF f) = map_res (map fV) (reg_predict r f).
Hypothesis RP1 : forall r r' f, RR r r' -> reg_predict1 r' (fF f) = map_res fV (reg_predict1 r f).
(** What is printed puts displacements where the shape model expects positions. *)
Definition printable (verbose : bool) : Prop := verbose -> (forall v, fP v = fV v) /\ fV garbage = garbage /\
  forall s1 s2 s3, compute_error (fS s1) (fS s2) (fS s3) = compute_error s1 s2 s3.

Lemma print_sim gts n : printable true -> forall delta est j m m', RM m m' ->
  both (fun r r' => r'.1 = r.1 /\ RM r.2 r'.2) (print_info from_vector tgt compute_error garbage gts n j delta est m)
    (print_info from_vector' tgt compute_error garbage (map fS gts) n j (oV delta) (map fV est) m').
Proof.
  move=> /(_ isT) [PV [G CE]]. elim=> [|dx delta IH] [|edx est] j m m' H //=.
  have -> : match omap fV dx with Some v => v | None => garbage end = fP (match dx with Some v => v | None => garbage end)
    by case: dx => [v|] /=; rewrite PV // G.
  move: (match dx with Some v => v | None => garbage end) => v.
  have := FV v H. case: from_vector => [m1|x]; case: from_vector' => [m1'|x'] //= H1. rewrite -PV.
  have := FV edx H1. case: from_vector => [m2|x]; case: from_vector' => [m2'|x'] //= H2.
  rewrite nth_res_map. case: nth_res => [g|x] //=. rewrite (TGT H1) (TGT H2) CE. case: compute_error => [er|x] //=.
  have := IH est (Datatypes.S j) m2 m2' H2. case: print_info => [[es m3]|x]; case: print_info => [[es' m3']|x'] //= [-> H3] //.
Qed.

Definition regs_sim (rs rs' : list R) : Prop := List.Forall2 RR rs rs'.
Lemma regs_nth rs rs' k : regs_sim rs rs' -> both RR (nth_res rs k) (nth_res rs' k).
Proof. move=> H. rewrite /nth_res. elim: H k => [|r r' rs1 rs1' Hr H IH] [|k] //=. Qed.
Lemma regs_app rs rs' ts ts' : regs_sim rs rs' -> regs_sim ts ts' -> regs_sim (rs ++ ts) (rs' ++ ts').
Proof. move=> H K. elim: H => [|r r' rs1 rs1' Hr H IH] //=. by constructor. Qed.
Lemma regs_firstn rs rs' : regs_sim rs rs' -> forall k, regs_sim (List.firstn k rs) (List.firstn k rs').
Proof. elim=> [|r r' rs1 rs1' Hr H IH] [|k] /=; try by constructor. constructor=> //. exact: IH. Qed.
Lemma regs_skipn rs rs' : regs_sim rs rs' -> forall k, regs_sim (List.skipn k rs) (List.skipn k rs').
Proof. elim=> [|r r' rs1 rs1' Hr H IH] [|k] /=; try by constructor. exact: IH. Qed.

(** What two trainings leave behind. *)
Definition outcome_sim (o o' : outcome S R M E) : Prop :=
  [/\ o_currents o' = map (map (map fS)) (o_currents o), o_printed o' = o_printed o, regs_sim (o_regs o) (o_regs o'),
      RM (o_model o) (o_model o') & o_final o' = map (map fS) (o_final o)].
Definition alg_sim (a a' : algorithm R M A) : Prop :=
  [/\ regs_sim (a_regressors a) (a_regressors a'), RMo (a_shape a) (a_shape a') & RAo (a_appearance a) (a_appearance a')].

Lemma loop_sim feat feat' vb inc np gts n : printable vb ->
  (forall c, feat' (map (map fS) c) = map_res (map fF) (feat c)) ->
  forall k gt cur m m' delta regs regs', RM m m' -> regs_sim regs regs' ->
  both outcome_sim
    (loop vadd vsub set_target from_vector vec tgt reg_train reg_increment reg_predict compute_error garbage feat vb inc np gts n k gt cur m delta regs)
    (loop vadd vsub set_target' from_vector' vec tgt reg_train reg_increment reg_predict compute_error garbage feat' vb inc np (map fS gts) n k (oP gt)
       (map (map fS) cur) m' (oV delta) regs').
Proof.
  move=> PR FE. elim: n => [|n IH] k gt cur m m' delta regs regs' HM HR //=. rewrite FE. case: (feat cur) => [f|e] //=.
  have Hregs : both regs_sim
    (if inc then let? r := nth_res regs k in let? r' := reg_increment r f delta in Ok (List.firstn k regs ++ r' :: List.skipn (Datatypes.S k) regs)
     else let? r := reg_train f delta in Ok (regs ++ [:: r]))
    (if inc then let? r := nth_res regs' k in let? r' := reg_increment r (map fF f) (oV delta) in Ok (List.firstn k regs' ++ r' :: List.skipn (Datatypes.S k) regs')
     else let? r := reg_train (map fF f) (oV delta) in Ok (regs' ++ [:: r])).
  { case: (inc).
      have := regs_nth k HR. case: nth_res => [r|x]; case: nth_res => [r'|x'] //= Hr.
      have := RI f delta Hr. case: reg_increment => [r1|x]; case: reg_increment => [r1'|x'] //= Hr1.
      apply: regs_app; first exact: regs_firstn. constructor=> //. exact: (regs_skipn HR (Datatypes.S k)).
    have := RT f delta. case: reg_train => [r1|x]; case: reg_train => [r1'|x'] //= Hr1. apply: regs_app => //. by constructor. }
  move: Hregs. move: (if inc then _ else _) => [rs|x]; move: (if inc then _ else _) => [rs'|x'] //= Hrs.
  have := regs_nth k Hrs. case: nth_res => [r|x]; case: nth_res => [r'|x'] //= Hr. rewrite (RP f Hr). case: reg_predict => [est|x] //=.
  have Hpr : both (fun r r' => r'.1 = r.1 /\ RM r.2 r'.2)
    (if vb then let? (es, m1) := print_info from_vector tgt compute_error garbage gts np 0 delta est m in Ok ([:: es], m1) else Ok ([::], m))
    (if vb then let? (es, m1) := print_info from_vector' tgt compute_error garbage (map fS gts) np 0 (oV delta) (map fV est) m' in Ok ([:: es], m1) else Ok ([::], m')).
  { case: vb PR {IH} => PR //. have := print_sim gts np PR delta est 0 HM.
    case: print_info => [[es m1]|x]; case: print_info => [[es' m1']|x'] //= [-> H1] //. }
  move: Hpr. move: (if vb then _ else _) => [[pr m1]|x]; move: (if vb then _ else _) => [[pr' m1']|x'] //= [-> H1].
  have := estimates_sim est gt cur 0 delta H1. case: estimates_outer => [[[c2 m2] d2]|x]; case: estimates_outer => [[[c2' m2'] d2']|x'] //= [-> [H2 ->]].
  have := IH (Datatypes.S k) gt c2 m2 m2' d2 rs rs' H2 Hrs.
  case: loop => [o|x]; case: loop => [o'|x'] //= [E1 E2 E3 E4 E5]. split=> //=; by rewrite ?E1 ?E2.
Qed.

Lemma train_sim vb inc n a a' images gts cur : printable vb -> alg_sim a a' ->
  both (fun r r' => alg_sim r.1 r'.1 /\ outcome_sim r.2 r'.2)
    (train kd vb inc n a images gts cur) (train' kd vb inc n a' (map fI images) (map fS gts) (map (map fS) cur)).
Proof.
  move=> PR [HR HM HA]. rewrite /SdmAlgorithm.train.
  have Hregs : both regs_sim (if inc then match a_regressors a with [::] => Err ValueError | rs => Ok rs end else Ok [::])
                             (if inc then match a_regressors a' with [::] => Err ValueError | rs => Ok rs end else Ok [::]).
  { case: inc; last by constructor. by case: HR => [|r r' rs rs' Hr HR] //=; constructor. }
  move: Hregs. move: (if inc then _ else _) => [rs|x]; move: (if inc then _ else _) => [rs'|x'] //= Hrs.
  rewrite !nth_res_map. case: nth_res => [c0|x] //=. case: nth_res => [g0|x] //=.
  have Hm : both RM (match (if k_shape kd then a_shape a else None) with Some m => Ok m | None => build_shape gts end)
                    (match (if k_shape kd then a_shape a' else None) with Some m => Ok m | None => build_shape' (map fS gts) end).
  { case: k_shape; last exact: BS. move: HM. case: a_shape => [m|]; case: a_shape => [m'|] //=. }
  move: Hm. move: (match (if k_shape kd then a_shape a else None) with Some _ => _ | None => _ end) => [m|x];
    move: (match (if k_shape kd then a_shape a' else None) with Some _ => _ | None => _ end) => [m'|x'] //= Hm.
  have := deltas_sim gts cur Hm. case: deltas => [[[m1 d1] g1]|x]; case: deltas => [[[m1' d1'] g1']|x'] //= [H1 [-> ->]].
  have Happ : both RAo
    (if k_appearance kd then match a_appearance a, n with Some ap, _ => Ok (Some ap) | None, 0 => Ok None | None, Datatypes.S _ => let? ap := appearance_of patches build_appearance images gts in Ok (Some ap) end else Ok (a_appearance a))
    (if k_appearance kd then match a_appearance a', n with Some ap, _ => Ok (Some ap) | None, 0 => Ok None | None, Datatypes.S _ => let? ap := appearance_of patches build_appearance (map fI images) (map fS gts) in Ok (Some ap) end else Ok (a_appearance a')).
  { case K : k_appearance => //. move: HA. case: a_appearance => [ap|]; case: a_appearance => [ap'|] //= _. case: (n) => [|n'] //.
    rewrite /appearance_of !List.map_length.
    have -> : List.combine (map fS gts) (map fI images) = map (fun q => (fS q.1, fI q.2)) (List.combine gts images)
      by elim: gts images {H1 cur Hm PR} => [|g gs IH] [|im ims] //=; rewrite IH.
    rewrite (mapM_map (g := fX) (h := fun q => patches q.2 q.1)); last by move=> q; rewrite PA.
    case: mapM => [rows|x] //=. have := BA K (length images) rows. case: build_appearance => [ap|x]; by case: build_appearance => [ap'|x'] //=. }
  move: Happ. move: (if k_appearance kd then _ else _) => [app|x]; move: (if k_appearance kd then _ else _) => [app'|x'] //= Happ.
  rewrite !List.map_length.
  have := loop_sim inc (length c0) gts n PR (fun c => features_sim images c Happ) 0 g1 cur d1 H1 Hrs.
  case: loop => [o|x]; case: loop => [o'|x'] //= O. split=> //. case: (O) => E1 E2 E3 E4 E5. split=> //=. by case: k_shape.
Qed.

Definition fC (c : call S I) : call S I := let: Call inc vb images gts cur := c in Call inc vb (map fI images) (map fS gts) (map (map fS) cur).
Definition c_verbose (c : call S I) : bool := let: Call _ vb _ _ _ := c in vb.
Lemma calls_sim n h : forall a a', List.Forall (fun c => printable (c_verbose c)) h -> alg_sim a a' ->
  both alg_sim (calls vadd vsub set_target from_vector vec tgt patches build_appearance appearance_feature build_shape reg_train reg_increment reg_predict compute_error garbage kd n a h)
               (calls vadd vsub set_target' from_vector' vec tgt patches build_appearance appearance_feature build_shape' reg_train reg_increment reg_predict compute_error garbage kd n a' (map fC h)).
Proof.
  elim: h => [|[inc vb images gts cur] h IH] a a' P H //=. inversion P as [|? ? P1 P2]; subst.
  have := train_sim inc n images gts cur P1 H. case: SdmAlgorithm.train => [[a1 o1]|x]; case: SdmAlgorithm.train => [[a1' o1']|x'] //= [H1 _]. exact: IH.
Qed.

(** Fits. *)
Lemma fit_sim a a' m m' im s : alg_sim a a' -> RM m m' ->
  both (fun r r' => r'.1 = map fS r.1 /\ RM r.2 r'.2) (fit kd a m im s) (fit' kd a' m' (fI im) (fS s)).
Proof.
  move=> [HR _ HA] HM. rewrite /SdmAlgorithm.fit. have := ST s HM. case: set_target => [m1|x]; case: set_target' => [m1'|x'] //= H1.
  elim: HR m1 m1' H1 => [|r r' rs rs' Hr H IH] m1 m1' H1 //=. rewrite (TGT H1) (test_sim im (tgt m1) HA). case: test_features => [f|x] //=.
  rewrite (RP1 f Hr). case: reg_predict1 => [dx|x] //=. rewrite (VEC H1) ADD.
  have := FV (vadd (vec m1) dx) H1. case: from_vector => [m2|x]; case: from_vector' => [m2'|x'] //= H2.
  have := IH m2 m2' H2. case: fit_loop => [[ss u]|x]; case: fit_loop => [[ss' u']|x'] //= [-> Hu]. by rewrite (TGT H2).
Qed.
End Simulation.
