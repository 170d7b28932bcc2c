(** Supervised descent trained on images whose contents are moved, each by its own amount. *)
From Verif.Model Require Import Py Result SdmTrain SdmAlgorithm.
From Verif.Spec Require Import Moves Renumber.
From Verif.Proofs Require Import SdmSimulation.
From Coq Require List.
From mathcomp Require Import all_ssreflect.
Set Implicit Arguments.
Unset Strict Implicit.
Unset Printing Implicit Defensive.
Local Notation map := List.map.

Section Offsets.
Context {S V I X R M A E O T : Type}.
Variables vadd vsub : V -> V -> V.
Variable set_target : M -> S -> res M.
Variable from_vector : M -> V -> res M.
Variable vec : M -> V.
Variable tgt : M -> S.
Variable patches : I -> S -> res X.
Variable build_appearance : nat -> list X -> res A.
Variable appearance_feature : A -> X -> res X.
Variable build_shape : list S -> res M.
Variable reg_train : list X -> list (option V) -> res R.
Variable reg_increment : R -> list X -> list (option V) -> res R.
Variable reg_predict : R -> list X -> res (list V).
Variable compute_error : S -> S -> S -> res E.
Variable garbage : V.

(** Moving shapes and vectors of positions; states of the shape model that are at moved shapes, and states that differ in
    nothing that lasts. *)
Variables (fS : O -> S -> S) (fP : O -> V -> V).
Variables (RM : O -> M -> M -> Prop) (RM0 : M -> M -> Prop).
Hypothesis ADD : forall o a b, vadd (fP o a) b = fP o (vadd a b).
Hypothesis SUB : forall o a b, vsub (fP o a) (fP o b) = vsub a b.
Hypothesis FORGET : forall o m m', RM o m m' -> RM0 m m'.
Hypothesis ST : forall o m m' s, RM0 m m' -> both (RM o) (set_target m s) (set_target m' (fS o s)).
Hypothesis FV : forall o m m' v, RM o m m' -> both (RM o) (from_vector m v) (from_vector m' (fP o v)).
Hypothesis VEC : forall o m m', RM o m m' -> vec m' = fP o (vec m).
Hypothesis TGT : forall o m m', RM o m m' -> tgt m' = fS o (tgt m).

(** The training samples. *)
Variables (im im' : T -> I) (off : T -> O) (gt : T -> S).
Definition same_look (t : T) : Prop := forall s, patches (im' t) (fS (off t) s) = patches (im t) s.
Notation sample := (T * list S)%type.
Definition gt' (t : T) : S := fS (off t) (gt t).
Definition mv (d : sample) : list S := map (fS (off d.1)) d.2.
Definition profile (ds : list sample) : list (T * nat) := map (fun d => (d.1, length d.2)) ds.

(** Which offset each row belongs to. *)
Fixpoint placed (ro : nat -> O) (k : nat) (p : list (T * nat)) : Prop :=
  match p with [::] => True | (t, n) :: p' => (forall j, (j < n)%N -> ro (k + j) = off t) /\ placed ro (k + n) p' end.
Lemma placed_ext ro ro' p : forall k, (forall j, (k <= j)%N -> ro j = ro' j) -> placed ro k p -> placed ro' k p.
Proof.
  elim: p => [|[t n] p IH] k H //= [P1 P2]. split; first by move=> j J; rewrite -H ?leq_addr ?P1.
  apply: IH P2 => j J. apply: H. exact: leq_trans (leq_addr _ _) J.
Qed.
Lemma placing (o0 : O) p : forall k, exists ro, placed ro k p.
Proof.
  elim: p => [|[t n] p IH] k; first by exists (fun _ => o0). have [ro P] := IH (k + n).
  exists (fun j => if (j < k + n)%N then off t else ro j). split; first by move=> j J; rewrite ltn_add2l J.
  apply: placed_ext P => j J. by rewrite ltnNge J.
Qed.

Section Rows.
Variable ro : nat -> O.
Fixpoint Gr (r : nat -> O) (g g' : list (option V)) : Prop :=
  match g, g' with
  | [::], [::] => True
  | x :: g1, x' :: g1' => x' = omap (fP (r 0)) x /\ Gr (fun j => r j.+1) g1 g1'
  | _, _ => False
  end.
Lemma Gr_set v : forall k r g g', Gr r g g' -> both (Gr r) (set_row k v g) (set_row k (fP (r k) v) g').
Proof.
  elim=> [|k IH] r [|x g] [|x' g'] //= [H1 H2] //. have := IH _ _ _ H2.
  case: set_row => [u|e]; case: set_row => [u'|e'] //=.
Qed.
Lemma Gr_nth : forall j r g g', Gr r g g' -> nth_res g' j = map_res (omap (fP (r j))) (nth_res g j).
Proof. rewrite /nth_res. elim=> [|j IH] r [|x g] [|x' g'] //= [H1 H2]; first by rewrite H1. exact: IH H2. Qed.
Lemma Gr_none n : forall r, Gr r (List.repeat None n) (List.repeat None n).
Proof. by elim: n => [|n IH] r /=. Qed.

Lemma deltas_inner_off o g : forall ss k m m' delta gr gr', (forall j, (j < length ss)%N -> ro (k + j) = o) -> RM0 m m' -> Gr ro gr gr' ->
  both (fun r r' => r.1.1.1 = (k + length ss)%N /\ r'.1.1.1 = r.1.1.1 /\ RM0 r.1.1.2 r'.1.1.2 /\ r'.1.2 = r.1.2 /\ Gr ro r.2 r'.2)
    (deltas_inner vsub set_target vec g ss k m delta gr) (deltas_inner vsub set_target vec (fP o g) (map (fS o) ss) k m' delta gr').
Proof.
  elim=> [|s ss IH] k m m' delta gr gr' P H HG /=; first by rewrite addn0.
  have Ek : ro k = o by have := P 0 isT; rewrite addn0.
  have := Gr_set g k HG. rewrite Ek. case: set_row => [g1|e]; case: set_row => [g1'|e'] //= HG1.
  have := ST o s H. case: set_target => [m1|e]; case: set_target => [m1'|e'] //= H1.
  rewrite (VEC H1) SUB. case: set_row => [d1|e] //=.
  have Q j : (j < length ss)%N -> ro (k.+1 + j) = o by move=> J; rewrite addSnnS; apply: P.
  have := IH k.+1 m1 m1' d1 g1 g1' Q (FORGET H1) HG1.
  case: deltas_inner => [[[[k2 m2] d2] g2]|e]; case: deltas_inner => [[[[k2' m2'] d2'] g2']|e'] //= [-> [-> [H2 H3]]]. by rewrite addSnnS.
Qed.
Lemma deltas_outer_off : forall (ds : list sample) k m m' delta gr gr', placed ro k (profile ds) -> RM0 m m' -> Gr ro gr gr' ->
  both (fun r r' => RM0 r.1.1 r'.1.1 /\ r'.1.2 = r.1.2 /\ Gr ro r.2 r'.2)
    (deltas_outer vsub set_target vec (map (fun d => gt d.1) ds) (map snd ds) k m delta gr)
    (deltas_outer vsub set_target vec (map (fun d => gt' d.1) ds) (map mv ds) k m' delta gr').
Proof.
  elim=> [|[t ss] ds IH] k m m' delta gr gr' //= [P1 P2] H HG.
  have := ST (off t) (gt t) H. rewrite -/(gt' t). case: set_target => [m1|e]; case: set_target => [m1'|e'] //= H1. rewrite (VEC H1).
  have := deltas_inner_off (o := off t) (vec m1) delta P1 (FORGET H1) HG. rewrite -/(mv (t, ss)).
  case: deltas_inner => [[[[k1 m2] d2] g2]|e]; case: deltas_inner => [[[[k1' m2'] d2'] g2']|e'] //= [-> [-> [H2 [-> HG2]]]]. exact: IH.
Qed.

Lemma estimates_inner_off o est gr gr' : Gr ro gr gr' -> forall ss j m m' delta, (forall i, (i < length ss)%N -> ro (j + i) = o) -> RM0 m m' ->
  both (fun r r' => r'.1.1.1 = map (fS o) r.1.1.1 /\ length r.1.1.1 = length ss /\ r.1.1.2 = (j + length ss)%N /\ r'.1.1.2 = r.1.1.2 /\ RM0 r.1.2 r'.1.2 /\ r'.2 = r.2)
    (estimates_inner vadd vsub set_target from_vector vec tgt est gr ss j m delta)
    (estimates_inner vadd vsub set_target from_vector vec tgt est gr' (map (fS o) ss) j m' delta).
Proof.
  move=> HG. elim=> [|s ss IH] j m m' delta P H /=; first by rewrite addn0.
  have Ej : ro j = o by have := P 0 isT; rewrite addn0.
  case: (nth_res est j) => [e|x] //=.
  have := ST o s H. case: set_target => [m1|x]; case: set_target => [m1'|x'] //= H1. rewrite (VEC H1) ADD.
  have := FV (vadd (vec m1) e) H1. case: from_vector => [m2|x]; case: from_vector => [m2'|x'] //= H2.
  rewrite (Gr_nth j HG) Ej. case: (nth_res gr j) => [g|x] //=.
  have -> : match omap (fP o) g with Some gv => set_row j (vsub gv (fP o (vadd (vec m1) e))) delta | None => Ok delta end =
            match g with Some gv => set_row j (vsub gv (vadd (vec m1) e)) delta | None => Ok delta end by case: g => [gv|] //=; rewrite SUB.
  case: (match g with Some gv => _ | None => _ end) => [d1|x] //=.
  have Q i : (i < length ss)%N -> ro (j.+1 + i) = o by move=> J; rewrite addSnnS; apply: P.
  have := IH j.+1 m2 m2' d1 Q (FORGET H2). case: estimates_inner => [[[[r1 j1] m3] d3]|x]; case: estimates_inner => [[[[r1' j1'] m3'] d3']|x'] //=.
  move=> [-> [-> [-> [-> [H3 ->]]]]]. by rewrite (TGT H2) addSnnS.
Qed.
Lemma estimates_off est gr gr' : Gr ro gr gr' -> forall (ds : list sample) j m m' delta, placed ro j (profile ds) -> RM0 m m' ->
  both (fun r r' => exists ds1, profile ds1 = profile ds /\ r.1.1 = map snd ds1 /\ r'.1.1 = map mv ds1 /\ RM0 r.1.2 r'.1.2 /\ r'.2 = r.2)
    (estimates_outer vadd vsub set_target from_vector vec tgt est gr (map snd ds) j m delta)
    (estimates_outer vadd vsub set_target from_vector vec tgt est gr' (map mv ds) j m' delta).
Proof.
  move=> HG. elim=> [|[t ss] ds IH] j m m' delta /=; first by move=> _ H; exists [::].
  move=> [P1 P2] H. have := estimates_inner_off (o := off t) est HG delta P1 H. rewrite -/(mv (t, ss)).
  case: estimates_inner => [[[[r1 j1] m3] d3]|x]; case: estimates_inner => [[[[r1' j1'] m3'] d3']|x'] //= [-> [L [-> [-> [H3 ->]]]]].
  have := IH _ m3 m3' d3 P2 H3.
  case: estimates_outer => [[[r m4] d4]|x]; case: estimates_outer => [[[r' m4'] d4']|x'] //= [ds1 [Pf [-> [-> H4]]]].
  exists ((t, r1) :: ds1). by rewrite /= Pf L.
Qed.
End Rows.

Section Features.
Variable ts : list T.
Hypothesis LOOK : forall t, List.In t ts -> same_look t.
Lemma mapM_mv kd app t ss : same_look t ->
  mapM (test_features patches appearance_feature kd app (im' t)) (mv (t, ss)) = mapM (test_features patches appearance_feature kd app (im t)) ss.
Proof. move=> H. rewrite /mv /=. elim: ss => [|s ss IH] //=. by rewrite /test_features H -/(test_features _ _ _ _ _) IH. Qed.
Lemma mapM_patches t ss : same_look t -> mapM (patches (im' t)) (mv (t, ss)) = mapM (patches (im t)) ss.
Proof. move=> H. rewrite /mv /=. elim: ss => [|s ss IH] //=. by rewrite H IH. Qed.
Lemma features_off kd app (ds : list sample) : map fst ds = ts ->
  training_features patches appearance_feature kd app (map im' ts) (map mv ds) = training_features patches appearance_feature kd app (map im ts) (map snd ds).
Proof.
  move=> Et. have L d : List.In d ds -> same_look d.1 by move=> H; apply: LOOK; rewrite -Et; exact: List.in_map.
  rewrite -Et !List.map_map /training_features {Et}.
  have -> : features_zip patches appearance_feature kd app (map (fun x => im' x.1) ds) (map mv ds) =
            features_zip patches appearance_feature kd app (map (fun x => im x.1) ds) (map snd ds).
    elim: ds L => [|[t ss] ds IH] L //=. rewrite mapM_mv; last by apply: (L (t, ss)); left.
    rewrite IH // => d D. by apply: L; right.
  have -> : features_per_image patches (map (fun x => im' x.1) ds) (map mv ds) = features_per_image patches (map (fun x => im x.1) ds) (map snd ds).
    elim: ds L => [|[t ss] ds IH] L //=. rewrite mapM_patches; last by apply: (L (t, ss)); left.
    rewrite IH // => d D. by apply: L; right.
  by [].
Qed.
End Features.

(** What is printed: the displacements are put where the shape model expects positions. *)
Definition printable_off (verbose : bool) : Prop := verbose ->
  (forall m m' v, RM0 m m' -> both (fun u u' => RM0 u u' /\ tgt u' = tgt u) (from_vector m v) (from_vector m' v)) /\
  forall s1 s2 s3 o, compute_error s1 s2 (fS o s3) = compute_error s1 s2 s3.
Lemma print_off ts n : printable_off true -> forall delta est j m m', RM0 m m' ->
  both (fun r r' => r'.1 = r.1 /\ RM0 r.2 r'.2) (print_info from_vector tgt compute_error garbage (map gt ts) n j delta est m)
    (print_info from_vector tgt compute_error garbage (map gt' ts) n j delta est m').
Proof.
  move=> /(_ isT) [PV CE]. elim=> [|dx delta IH] [|edx est] j m m' H //=.
  move: (match dx with Some v => v | None => garbage end) => v.
  have := PV _ _ v H. case: from_vector => [m1|x]; case: from_vector => [m1'|x'] //= [H1 T1].
  have := PV _ _ edx H1. case: from_vector => [m2|x]; case: from_vector => [m2'|x'] //= [H2 T2].
  rewrite !nth_res_map. case: nth_res => [t|x] //=. rewrite T1 T2 /gt' CE. case: compute_error => [er|x] //=.
  have := IH est j.+1 m2 m2' H2. case: print_info => [[es m3]|x]; case: print_info => [[es' m3']|x'] //= [-> H3] //.
Qed.

(** What two trainings leave behind: the same regressors; estimates moved by the amount of their image. *)
Definition moved_currents (ts : list T) (c c' : list (list S)) : Prop := exists ds, map fst ds = ts /\ c = map snd ds /\ c' = map mv ds.
Definition outcome_off (ts : list T) (o o' : outcome S R M E) : Prop :=
  [/\ List.Forall2 (moved_currents ts) (o_currents o) (o_currents o'), o_printed o' = o_printed o, o_regs o' = o_regs o,
      RM0 (o_model o) (o_model o') & moved_currents ts (o_final o) (o_final o')].
Definition alg_off (a a' : algorithm R M A) : Prop :=
  a_regressors a' = a_regressors a /\ RMo RM0 (a_shape a) (a_shape a') /\ a_appearance a' = a_appearance a.
Lemma profile_fst ds ds1 : profile ds1 = profile ds -> map fst ds1 = map fst ds.
Proof. move=> H. have := congr1 (map fst) H. by rewrite /profile !List.map_map. Qed.

Lemma loop_off ro ts gr gr' feat feat' vb inc np n : printable_off vb -> Gr ro gr gr' ->
  (forall ds, map fst ds = ts -> feat' (map mv ds) = feat (map snd ds)) ->
  forall k ds m m' delta regs, placed ro 0 (profile ds) -> map fst ds = ts -> RM0 m m' ->
  both (outcome_off ts)
    (loop vadd vsub set_target from_vector vec tgt reg_train reg_increment reg_predict compute_error garbage feat vb inc np (map gt ts) n k gr (map snd ds) m delta regs)
    (loop vadd vsub set_target from_vector vec tgt reg_train reg_increment reg_predict compute_error garbage feat' vb inc np (map gt' ts) n k gr' (map mv ds) m' delta regs).
Proof.
  move=> PR HG FE. elim: n => [|n IH] k ds m m' delta regs P Et HM /=.
    split=> //=. by exists ds.
  rewrite (FE _ Et). case: (feat _) => [f|e] //=.
  move: (if inc then _ else _) => [rs|x] //=. case: (nth_res rs k) => [r|x] //=. case: reg_predict => [est|x] //=.
  have Hpr : both (fun r r' => r'.1 = r.1 /\ RM0 r.2 r'.2)
    (if vb then let? (es, m1) := print_info from_vector tgt compute_error garbage (map gt ts) np 0 delta est m in Ok ([:: es], m1) else Ok ([::], m))
    (if vb then let? (es, m1) := print_info from_vector tgt compute_error garbage (map gt' ts) np 0 delta est m' in Ok ([:: es], m1) else Ok ([::], m')).
  { case: vb PR {IH} => PR //. have := print_off ts np PR delta est 0 HM.
    case: print_info => [[es m1]|x]; case: print_info => [[es' m1']|x'] //= [-> H1] //. }
  move: Hpr. move: (if vb then _ else _) => [[pr m1]|x]; move: (if vb then _ else _) => [[pr' m1']|x'] //= [-> H1].
  have := estimates_off est HG delta P H1.
  case: estimates_outer => [[[c2 m2] d2]|x]; case: estimates_outer => [[[c2' m2'] d2']|x'] //= [ds1 [Pf [-> [-> [H2 ->]]]]].
  have := IH k.+1 ds1 m2 m2' d2 rs. rewrite Pf (profile_fst Pf) => /(_ P Et H2).
  case: loop => [o|x]; case: loop => [o'|x'] //= [E1 E2 E3 E4 E5]. split=> //=; last by rewrite E2. constructor=> //. by exists ds.
Qed.

Notation train := (train vadd vsub set_target from_vector vec tgt patches build_appearance appearance_feature build_shape reg_train reg_increment reg_predict compute_error garbage).
Lemma train_off kd vb inc n a a' (ds : list sample) : printable_off vb -> alg_off a a' -> (forall d, List.In d ds -> same_look d.1) ->
  ((if k_shape kd then a_shape a else None) = None -> both RM0 (build_shape (map (fun d => gt d.1) ds)) (build_shape (map (fun d => gt' d.1) ds))) ->
  both (fun r r' => alg_off r.1 r'.1 /\ outcome_off (map fst ds) r.2 r'.2)
    (train kd vb inc n a (map (fun d => im d.1) ds) (map (fun d => gt d.1) ds) (map snd ds))
    (train kd vb inc n a' (map (fun d => im' d.1) ds) (map (fun d => gt' d.1) ds) (map mv ds)).
Proof.
  move=> PR [HR [HM HA]] LK BS. rewrite /SdmAlgorithm.train HR.
  move: (if inc then _ else _) => [rs|x] //=.
  have [->|[d0 [ds0 E0]]] : ds = [::] \/ exists d0 ds0, ds = d0 :: ds0 by case: ds {LK BS} => [|d0 ds0]; [left|right; exists d0, ds0].
    by [].
  have o0 := off d0.1.
  have -> : nth_res (map snd ds) 0 = Ok d0.2 by rewrite E0. have -> : nth_res (map mv ds) 0 = Ok (mv d0) by rewrite E0.
  have -> : nth_res (map (fun d => gt d.1) ds) 0 = Ok (gt d0.1) by rewrite E0. have -> : nth_res (map (fun d => gt' d.1) ds) 0 = Ok (gt' d0.1) by rewrite E0. cbn [bind].
  set ts := map fst ds.
  have Hm : both RM0 (match (if k_shape kd then a_shape a else None) with Some m => Ok m | None => build_shape (map (fun d => gt d.1) ds) end)
                    (match (if k_shape kd then a_shape a' else None) with Some m => Ok m | None => build_shape (map (fun d => gt' d.1) ds) end).
  { move: BS. case: k_shape; last exact. move: HM. case: a_shape => [m|]; case: a_shape => [m'|] // _. exact. }
  move: Hm. move: (match (if k_shape kd then a_shape a else None) with Some _ => _ | None => _ end) => [m|x];
    move: (match (if k_shape kd then a_shape a' else None) with Some _ => _ | None => _ end) => [m'|x'] //= Hm.
  have [ro P] := placing o0 (profile ds) 0.
  rewrite /deltas. have -> : nth_res (map snd ds) 0 = Ok d0.2 by rewrite E0. have -> : nth_res (map mv ds) 0 = Ok (mv d0) by rewrite E0. cbn [bind].
  have -> : length (mv d0) = length d0.2 by rewrite /mv List.map_length. rewrite !List.map_length. set rows := List.repeat _ _.
  have := deltas_outer_off rows P Hm (Gr_none (length ds * length d0.2) ro). rewrite -/rows.
  case: deltas_outer => [[[m1 d1] g1]|x]; case: deltas_outer => [[[m1' d1'] g1']|x'] //= [H1 [-> HG]].
  have -> : appearance_of patches build_appearance (map (fun d => im' d.1) ds) (map (fun d => gt' d.1) ds) =
            appearance_of patches build_appearance (map (fun d => im d.1) ds) (map (fun d => gt d.1) ds).
  { rewrite /appearance_of !List.map_length. congr (let? _ := _ in _).
    move: (ds) LK => l. elim: l => [|[t ss] l IH] L //=. rewrite /gt' (L (t, ss)); last by left.
    rewrite -/(gt' _) IH // => d D. by apply: L; right. }
  rewrite HA.
  move: (if k_appearance kd then _ else _) => [app|x] //=.
  have LT t : List.In t ts -> same_look t by move=> /List.in_map_iff [d [<- D]]; exact: LK.
  have := loop_off inc (length d0.2) n PR HG (fun ds H => features_off LT kd app H) 0 (ds := ds) d1 rs P erefl H1.
  rewrite -/ts !List.map_map.
  case: loop => [o|x]; case: loop => [o'|x'] //= O'. split=> //. case: (O') => E1 E2 E3 E4 E5. split=> //=. split=> //. by case: k_shape.
Qed.
End Offsets.
