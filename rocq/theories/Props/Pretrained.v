(** C114: every pretrained fitter has a file and an address of its own. *)
From Coq Require Import String Ascii DecimalString List Arith Bool Lia.
From Verif.Model Require Import Py Dict Result Perturb Io Pretrained.
From Verif.Spec Require Import Io.
From Verif.Proofs Require Perturb Io.
Import ListNotations.

(** ** Reading a file name from its end *)
Definition digit (c : ascii) : Prop := In c (list_ascii_of_string "0123456789").
Lemma show_digits k : Forall digit (list_ascii_of_string (show_nat k)).
Proof.
  unfold show_nat. induction (Nat.to_uint k) as [|u IH|u IH|u IH|u IH|u IH|u IH|u IH|u IH|u IH|u IH];
    cbn [NilEmpty.string_of_uint list_ascii_of_string]; constructor; try exact IH; unfold digit; cbn; tauto.
Qed.
Lemma ascii_app s t : list_ascii_of_string (s ++ t) = (list_ascii_of_string s ++ list_ascii_of_string t)%list.
Proof. induction s as [|c s IH]; [reflexivity|]. cbn. now rewrite IH. Qed.
Lemma ascii_inj s t : list_ascii_of_string s = list_ascii_of_string t -> s = t.
Proof. intros H. rewrite <- (string_of_list_ascii_of_string s), H. apply string_of_list_ascii_of_string. Qed.
Lemma last_mark (c : ascii) : ~ digit c -> forall l l' d d', Forall digit d -> Forall digit d' ->
  (l ++ c :: d = l' ++ c :: d')%list -> l = l' /\ d = d'.
Proof.
  intros N. induction l as [|x l IH]; intros [|y l'] d d' D D' H; cbn in H.
  - injection H as ->. auto.
  - injection H as _ ->. exfalso. apply N. rewrite Forall_forall in D. apply D, in_elt.
  - injection H as _ <-. exfalso. apply N. rewrite Forall_forall in D'. apply D', in_elt.
  - injection H as -> H. destruct (IH l' d d' D D' H) as [-> ->]. auto.
Qed.
Lemma not_digit c : existsb (Ascii.eqb c) (list_ascii_of_string "0123456789") = false -> ~ digit c.
Proof. intros H I. enough (existsb (Ascii.eqb c) (list_ascii_of_string "0123456789") = true) by congruence. apply existsb_exists. exists c. split; [exact I|apply Ascii.eqb_refl]. Qed.
Lemma filename_inj f g : filename_for_fitter f = filename_for_fitter g -> f = g.
Proof.
  destruct f as [n v p], g as [n' v' p']. unfold filename_for_fitter. cbn [id_name id_version id_python]. intros H.
  apply (f_equal list_ascii_of_string) in H. rewrite !ascii_app in H. rewrite !app_assoc in H. apply app_inv_tail in H.
  change (list_ascii_of_string "_py") with (["_"; "p"] ++ ["y"])%char%list in H. rewrite !app_assoc in H.
  rewrite <- !(app_assoc _ ["y"%char]) in H. cbn [app] in H.
  destruct (last_mark "y"%char (not_digit "y"%char eq_refl) _ _ _ _ (show_digits p) (show_digits p') H) as [H1 P].
  apply app_inv_tail in H1. change (list_ascii_of_string "_v") with (["_"] ++ ["v"])%char%list in H1. rewrite !app_assoc in H1.
  rewrite <- !(app_assoc _ ["v"%char]) in H1. cbn [app] in H1.
  destruct (last_mark "v"%char (not_digit "v"%char eq_refl) _ _ _ _ (show_digits v) (show_digits v') H1) as [H3 V].
  apply app_inv_tail in H3. apply ascii_inj in H3. apply ascii_inj, Proofs.Perturb.show_nat_inj in V, P. congruence.
Qed.

(** Two requests share a file exactly if they share an address, and exactly if name, binary version and Python version agree;
    whatever the names contain (a name may itself end in "_v1_py3.pkl"). *)
Theorem c114_own_file : forall data_dir f g,
  (path_of_fitter data_dir f = path_of_fitter data_dir g <-> f = g) /\ (url_of_fitter f = url_of_fitter g <-> f = g).
Proof.
  intros dir f g. unfold path_of_fitter, url_of_fitter. split; (split; [intros H|now intros ->]); apply filename_inj.
  - apply Proofs.Perturb.append_inj in H. now apply Proofs.Perturb.append_inj in H.
  - apply Proofs.Perturb.append_inj in H. now apply Proofs.Perturb.append_inj in H.
Qed.

(** Loading many fitters, in any order, by any versions, with any failures and interruptions: for each of them the files and
    outcomes are those of its own calls alone (to which C27 applies), and files of no fitter that was asked for stay. *)
Definition same (f g : fitter_id) : bool :=
  String.eqb (id_name f) (id_name g) && (id_version f =? id_version g) && (id_python f =? id_python g).
Lemma same_iff f g : same f g = true <-> f = g.
Proof.
  unfold same. rewrite !andb_true_iff, String.eqb_eq, !Nat.eqb_eq. destruct f, g; cbn. split; [intros [[-> ->] ->]; auto|intros [= -> -> ->]; auto].
Qed.
Theorem c114_independent : forall (B Fit : Type) data_dir (calls : list (fitter_id * environment B Fit)) d d' os,
  load_all data_dir calls d = (d', os) ->
  List.length os = List.length calls /\
  (forall f, let mine := filter (fun c => same f (fst (fst c))) (combine calls os) in
     loads (map (fun c => snd (fst c)) mine) (d (path_of_fitter data_dir f)) = (d' (path_of_fitter data_dir f), map snd mine)) /\
  (forall p, (forall c, In c calls -> p <> path_of_fitter data_dir (fst c)) -> d' p = d p).
Proof.
  intros B Fit dir. induction calls as [|[g env] calls IH]; intros d d' os H; cbn in H.
  - injection H as <- <-. repeat split; reflexivity.
  - unfold load_named in H. destruct (load_fitter env (d (path_of_fitter dir g))) as [c o] eqn:E.
    destruct (load_all dir calls (set_file (path_of_fitter dir g) c d)) as [d2 os2] eqn:E2. injection H as <- <-.
    destruct (IH _ _ _ E2) as (L & F & O). split; [cbn; now rewrite L|]. split.
    + intros f. cbn [combine filter fst snd map]. specialize (F f). cbn zeta in F. unfold set_file at 1 in F.
      destruct (same f g) eqn:S.
      * apply same_iff in S. subst g. cbn [map fst snd loads]. rewrite String.eqb_refl in F. rewrite E. now rewrite F.
      * destruct (String.eqb_spec (path_of_fitter dir g) (path_of_fitter dir f)) as [X|X].
        -- apply c114_own_file in X. subst g. rewrite (proj2 (same_iff f f) eq_refl) in S. discriminate.
        -- exact F.
    + intros p N. rewrite O; [|intros x X; apply N; now right]. unfold set_file.
      destruct (String.eqb_spec (path_of_fitter dir g) p) as [X|X]; [|reflexivity]. exfalso. apply (N (g, env)); [now left|auto].
Qed.
(** Hence a new binary version never opens the files of another one: where its own file is missing it downloads. *)
Theorem c114_new_version : forall (B Fit : Type) data_dir (calls : list (fitter_id * environment B Fit)) (d : disk) f (env : environment B Fit) d' (o : Fit),
  d (path_of_fitter data_dir f) = None -> (forall c, In c calls -> fst c <> f) ->
  load_named data_dir f env (fst (load_all data_dir calls d)) = (d', Returned o) ->
  exists c, d' (path_of_fitter data_dir f) = Some c /\ env_unpickle env c = Ok o /\ delivered env c.
Proof.
  intros B Fit dir calls d f env d' o N Other H. destruct (load_all dir calls d) as [d1 os] eqn:E.
  destruct (c114_independent B Fit dir calls d d1 os E) as (_ & _ & O). cbn [fst] in H.
  assert (N1 : d1 (path_of_fitter dir f) = None).
  { rewrite O; [exact N|]. intros c C X. apply c114_own_file in X. now apply (Other c C). }
  unfold load_named in H. rewrite N1 in H. destruct (load_fitter env None) as [c1 o1] eqn:L. injection H as <- ->.
  destruct (Proofs.Io.load_fitter_returned env None c1 o L) as (c & -> & U & [X|[_ D]]); [discriminate X|].
  exists c. unfold set_file. rewrite String.eqb_refl. auto.
Qed.

(** Two fitters and two versions of one of them; the second call of the first finds its file, the others download their own. *)
Definition p_env (file : list nat) : environment nat nat :=
  mk_env None None None [Chunk file] None (fun c => match c with [] => Err ValueError | x :: _ => Ok x end) None.
Example c114_ex : let a := balanced_frontal_face 0 3 in let b := balanced_frontal_face 1 3 in let c := mk_id "balanced_frontal_face_aam_v0_py3.pkl" 0 3 in
  filename_for_fitter a = "balanced_frontal_face_aam_v0_py3.pkl"%string /\
  snd (load_all "data" [(a, p_env [1]); (b, p_env [2]); (a, p_env [3]); (c, p_env [4])] (fun _ => None)) =
    [Returned 1; Returned 2; Returned 1; Returned 4].
Proof. split; reflexivity. Qed.

Print Assumptions c114_own_file.
Print Assumptions c114_independent.
Print Assumptions c114_new_version.
