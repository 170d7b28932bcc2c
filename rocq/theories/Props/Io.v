(** C27, C28: pretrained fitters. *)
From Coq Require Import String List Arith ZArith Lia.
From Verif.Model Require Import Py Dict Result Io.
From Verif.Spec Require Import Io.
From Verif.Proofs Require Io.
Import ListNotations.
Local Open Scope nat_scope.

(** ** C28 *)
(** Any history of calls of fit_from_bb and fit_from_shape: every call passes the user's keywords in preference to the
    stored defaults, its answer is mapped back to the image it was given, and no dictionary that existed before, in
    particular neither of the stored defaults (which may be one and the same object), ever changes. *)
Theorem c28_history : forall (V Img Sh P A C : Type)
  (wrapped : nat -> method -> Img -> Sh -> dict V -> res (wresult Img Sh P A C)) preprocess w h calls h' rs,
  bb_kwargs w < List.length h -> shape_kwargs w < List.length h ->
  Forall (fun c : call V Img Sh => NoDup (map fst (snd c))) calls ->
  fits wrapped preprocess w 0 h calls = (h', rs) ->
  (forall a, a < List.length h -> deref h' a = deref h a) /\
  List.length rs = List.length calls /\
  forall k c r, nth_error calls k = Some c -> nth_error rs k = Some r ->
    answer wrapped preprocess (fun m => match m with FitFromBb => deref h (bb_kwargs w) | FitFromShape => deref h (shape_kwargs w) end) k c r.
Proof.
  intros V Img Sh P A C wrapped preprocess w h calls h' rs H H0 H1 H2.
  destruct (Proofs.Io.fits_spec wrapped preprocess w calls 0 h h' rs H H0 H1 H2) as [K [L An]]. split; [exact K|]. split; [exact L|].
  intros k [[[m i] s] u] r Hc Hr. specialize (An k _ r Hc Hr). destruct m; exact An.
Qed.
Print Assumptions c28_history.

(** With an invertible preprocessing transform, a wrapped fitter that starts from the shape it is given is seen to start
    from the shape the user gave, and reports a final shape that is the last of its shapes. *)
Theorem c28_original_image : forall (V Img Sh P A C : Type)
  (wrapped : nat -> method -> Img -> Sh -> dict V -> res (wresult Img Sh P A C)) pre w h n m image shape kwargs h' out small t,
  bb_kwargs w < List.length h -> shape_kwargs w < List.length h -> NoDup (map fst kwargs) ->
  pre n image shape = Ok (small, t) -> (forall s, t_apply t (t_pinv t s) = s) ->
  (forall i s k r, wrapped n m i s k = Ok r -> r_initial (w_res r) = Some s /\ w_iterative r = true /\
     hd_error (r_shapes (w_res r)) = Some s /\ hd_error (rev (r_shapes (w_res r))) = Some (r_final (w_res r))) ->
  wrapped_fit wrapped (Some pre) w n h m image shape kwargs = (h', Ok out) ->
  w_image out = image /\ r_initial (w_res out) = Some shape /\ hd_error (r_shapes (w_res out)) = Some shape /\
  hd_error (rev (r_shapes (w_res out))) = Some (r_final (w_res out)).
Proof.
  intros V Img Sh P A C wrapped pre w h n m image shape kwargs h' out small t Hb Hs N Hp Inv Hw E.
  destruct (Proofs.Io.wrapped_fit_spec wrapped (Some pre) w n h m image shape kwargs h' (Ok out) Hb Hs N E) as [_ [_ [fin [_ An]]]].
  rewrite Hp in An. destruct (wrapped n m small (t_pinv t shape) fin) as [inner|e] eqn:W; [|discriminate].
  destruct (Hw _ _ _ _ W) as [Hi [It [Hh Hl]]]. rewrite Hi in An. destruct An as [out' [E' M]]. assert (out' = out) as -> by congruence.
  destruct M as [M1 M2 M3 M4 M5 M6 M7 M8 M9]. specialize (M4 It). specialize (M3 _ Hi). rewrite Inv in M3.
  split; [exact M1|]. split; [exact M3|]. rewrite M4, M2. split.
  - destruct (r_shapes (w_res inner)); cbn in *; [discriminate|]. assert (s = t_pinv t shape) as -> by congruence. rewrite Inv. reflexivity.
  - rewrite <- map_rev. destruct (rev (r_shapes (w_res inner))); cbn in *; [discriminate|]. congruence.
Qed.
Print Assumptions c28_original_image.

(** Two calls; both defaults are one dictionary; the second call overrides, the third sees the default again. *)
Definition ex_result (shape : nat) (k : option nat) : wresult nat nat unit unit unit :=
  mk_wresult 7 true {| r_final := shape + match k with Some v => v | None => 0 end; r_initial := Some shape; r_gt := None;
    r_shapes := [shape; shape + match k with Some v => v | None => 0 end]; r_n_iters := 1%Z; r_costs := None; r_params := []; r_app := None |}.
Definition ex_wrapped (n : nat) (m : method) (i s : nat) (k : dict nat) : res (wresult nat nat unit unit unit) :=
  Ok (ex_result s (dict_get "max_iters" k)).
Definition ex_pre (n i s : nat) : res (nat * transform nat) := Ok (7, mk_transform (fun x => x + 100) (fun x => x - 100)).
Example c28_ex :
  map (fun r => match r with Ok o => Some (w_image o, r_initial (w_res o), r_final (w_res o), r_shapes (w_res o)) | Err _ => None end)
    (snd (fits ex_wrapped (Some ex_pre) (mk_wrapper 0 0) 0 [[("max_iters"%string, 5)]]
       [(FitFromBb, 1, 120, []); (FitFromShape, 1, 120, [("max_iters"%string, 9)]); (FitFromShape, 2, 130, [])]))
  = [Some (1, Some 120, 125, [120; 125]); Some (1, Some 120, 129, [120; 129]); Some (2, Some 130, 135, [130; 135])].
Proof. vm_compute. reflexivity. Qed.

(** A wrapped fitter whose results have no initial shape (DlibWrapper, dlib/fitter.py 582-609) works without a
    preprocessing, and raises with any. *)
Theorem c28_no_initial_shape_refuted : exists (wrapped : nat -> method -> nat -> nat -> dict nat -> res (wresult nat nat unit unit unit)),
  (forall n m i s k, exists r, wrapped n m i s k = Ok r) /\
  (forall w n h m i s k, exists h' r, wrapped_fit wrapped None w n h m i s k = (h', Ok r)) /\
  (forall pre w n h m i s k small t, pre n i s = Ok (small, t) ->
     exists h', wrapped_fit wrapped (Some pre) w n h m i s k = (h', Err AttributeError)).
Proof.
  exists (fun n m i s k => Ok (mk_wresult i false {| r_final := s; r_initial := None; r_gt := None; r_shapes := []; r_n_iters := 0%Z;
    r_costs := None; r_params := []; r_app := None |})).
  split; [eauto|]. split.
  - intros. unfold wrapped_fit. cbn. eauto.
  - intros pre w n h m i s k small t E. unfold wrapped_fit. cbn. rewrite E. cbn. eauto.
Qed.
Print Assumptions c28_no_initial_shape_refuted.

(** ** C27 *)
(** In any history of calls, whatever interrupted the earlier ones: a call that returns a fitter has unpickled it from the
    content the file has afterwards, which is the content it had before or, if there was no file, all that was delivered. *)
Theorem c27_returned_from_disk : forall (B Fit : Type) (before : list (environment B Fit)) (env : environment B Fit) disk d o d' (f : Fit),
  loads before disk = (d, o) -> load_fitter env d = (d', Returned f) ->
  exists c, d' = Some c /\ env_unpickle env c = Ok f /\ (d = Some c \/ (d = None /\ delivered env c)).
Proof. intros B Fit before env disk d o d' f _ H. exact (Proofs.Io.load_fitter_returned env d d' f H). Qed.
Print Assumptions c27_returned_from_disk.

(** After any history, of any number of undisturbed calls at most the first one fails; if it does the file was damaged, and
    the next one downloads it again. *)
Theorem c27_recovers : forall (B Fit : Type) (before : list (environment B Fit)) disk d o (after : list (environment B Fit)) chunks unpickle (f : Fit),
  loads before disk = (d, o) -> Forall (fun env => healthy env chunks unpickle) after -> unpickle (concat chunks) = Ok f ->
  exists d' os, loads after d = (d', os) /\ Forall returned (tl os) /\
    (Forall returned os \/ exists c e, d = Some c /\ unpickle c = Err e /\ hd_error os = Some (Raised e) /\ Forall (fun o => o = Returned f) (tl os)).
Proof.
  intros B Fit before disk d o after chunks u f _ F U.
  assert (R : forall g (l : list (environment B Fit)), Forall (fun o => o = @Returned Fit g) (map (fun _ => Returned g) l)).
  { intros g l. induction l; constructor; auto. }
  assert (R' : forall g (l : list (environment B Fit)), Forall returned (map (fun _ => @Returned Fit g) l)).
  { intros g l. induction l; constructor; auto. exists g. reflexivity. }
  destruct F as [|e envs H F]; [exists d, []; repeat constructor|].
  cbn [loads]. rewrite (Proofs.Io.healthy_load e chunks u f d H U). destruct d as [c|].
  - destruct (u c) as [g|x] eqn:G.
    + rewrite (Proofs.Io.healthy_loads_file chunks u f envs U F c g G). eexists _, _. split; [reflexivity|]. cbn [tl].
      split; [apply R'|]. left. constructor; [exists g; reflexivity|apply R'].
    + destruct F as [|e2 envs H2 F].
      * cbn. eexists _, _. split; [reflexivity|]. split; [constructor|]. right. exists c, x. split; [reflexivity|]. split; [exact G|]. split; [reflexivity|constructor].
      * cbn [loads]. rewrite (Proofs.Io.healthy_load e2 chunks u f None H2 U), (Proofs.Io.healthy_loads_file chunks u f envs U F _ f U).
        eexists _, _. split; [reflexivity|]. cbn [tl]. split; [constructor; [exists f; reflexivity|apply R']|].
        right. exists c, x. split; [reflexivity|]. split; [exact G|]. split; [reflexivity|]. constructor; [reflexivity|apply R].
  - rewrite (Proofs.Io.healthy_loads_file chunks u f envs U F _ f U). eexists _, _. split; [reflexivity|]. cbn [tl]. split; [apply R'|].
    left. constructor; [exists f; reflexivity|apply R'].
Qed.
Print Assumptions c27_recovers.

(** A download that fails after the destination was opened costs a further call: an answer without a content length leaves an
    empty file, and so does a first read that fails; the next call, with nothing wrong any more, raises and removes it. *)
Theorem c27_empty_file : forall (B Fit : Type) (env env' : environment B Fit) chunks unpickle f e,
  env_urlopen env = None -> env_open env = None ->
  env_content_length env = Some e \/ (env_content_length env = None /\ hd_error (env_events env) = Some (ReadFails e)) ->
  healthy env' chunks unpickle -> (forall c g, unpickle c = Ok g -> c = concat chunks) -> unpickle (concat chunks) = Ok f -> concat chunks <> [] ->
  exists x, snd (loads [env; env'; env'] None) = [Raised e; Raised x; Returned f] /\ fst (loads [env; env'; env'] None) = Some (concat chunks) /\
    fst (loads [env] None) = Some [].
Proof.
  intros B Fit env env' chunks u f e U O Fail H Only Good N.
  assert (D : load_fitter env None = (Some [], Raised e)).
  { unfold load_fitter, download_file. rewrite U, O. destruct Fail as [-> | [-> Ev]]; [reflexivity|].
    destruct (env_events env) as [|ev evs]; [discriminate|]. injection Ev as ->. reflexivity. }
  destruct (u []) as [g|x] eqn:X; [exfalso; apply N; symmetry; eapply Only, X|]. exists x.
  assert (F1 : loads [env; env'; env'] None = (Some (concat chunks), [Raised e; Raised x; Returned f])).
  { cbn [loads]. rewrite D, (Proofs.Io.healthy_load env' chunks u f (Some []) H Good), X, (Proofs.Io.healthy_load env' chunks u f None H Good). reflexivity. }
  rewrite F1. split; [reflexivity|]. split; [reflexivity|]. cbn [loads]. rewrite D. reflexivity.
Qed.
Print Assumptions c27_empty_file.

(** Once a fitter has been returned, later calls return it whatever the state of the network. *)
Theorem c27_no_second_download : forall (B Fit : Type) (env env' : environment B Fit) disk d f,
  load_fitter env disk = (d, Returned f) -> env_unpickle env' = env_unpickle env -> env_load env' = None ->
  load_fitter env' d = (d, Returned f).
Proof.
  intros B Fit env env' disk d f H E L. apply Proofs.Io.load_fitter_returned in H. destruct H as [c [-> [U _]]].
  unfold load_fitter, load_existing. rewrite L, E, U. reflexivity.
Qed.
Print Assumptions c27_no_second_download.

(** A connection lost after two bytes, then a kill, then two undisturbed calls: one more failure, then success. *)
Definition ex_unpickle (c : list nat) : res nat := match c with [1; 2; 3; 4] => Ok 99 | _ => Err ValueError end.
Definition ex_env (ev : list (io_event nat)) : environment nat nat := mk_env None None None ev None ex_unpickle None.
Example c27_ex : snd (loads [ex_env [Chunk [1; 2]; ReadFails OSError]; ex_env []; ex_env [Chunk [1; 2]; Kill 1];
    ex_env [Chunk [1; 2]; Chunk [3; 4]]; ex_env [Chunk [1; 2]; Chunk [3; 4]]; ex_env [ReadFails OSError]] None)
  = [Raised OSError; Raised ValueError; Killed; Raised ValueError; Returned 99; Returned 99].
Proof. vm_compute. reflexivity. Qed.

Example c27_empty_file_ex : snd (loads [mk_env None None (Some OSError) [] None ex_unpickle None; ex_env [Chunk [1; 2]; Chunk [3; 4]];
    ex_env [Chunk [1; 2]; Chunk [3; 4]]] None) = [Raised OSError; Raised ValueError; Returned 99] /\
  healthy (ex_env [Chunk [1; 2]; Chunk [3; 4]]) [[1; 2]; [3; 4]] ex_unpickle.
Proof. split; [vm_compute; reflexivity|]. repeat split. Qed.

(** Any exception of the loading counts as damage: a complete file is removed when constructing the fitter fails for
    another reason (say, an optional package is missing), and without a network the fitter is lost. *)
Theorem c27_good_file_removed_refuted : exists (good : list nat) (env1 env2 env3 : environment nat nat) f,
  load_fitter env1 None = (Some good, Returned f) /\
  env_unpickle env1 good = Ok f /\ load_fitter env2 (Some good) = (None, Raised NameError) /\
  env_unpickle env3 = env_unpickle env1 /\ load_fitter env3 None = (None, Raised OSError).
Proof.
  exists [1; 2; 3; 4], (ex_env [Chunk [1; 2; 3; 4]]), (mk_env None None None [] None (fun _ => Err NameError) None),
    (mk_env (Some OSError) None None [] None ex_unpickle None), 99.
  vm_compute. auto 10.
Qed.
Print Assumptions c27_good_file_removed_refuted.

(** Any number of processes in any interleaving, with kills at any point: if only the complete file can be unpickled, a
    fitter that is returned is the one in the complete file. *)
Theorem c27_concurrent_safe : forall (B Fit : Type) (zero : B) remote (unpickle : list B -> res Fit) good e ns n w p f,
  (forall c g, unpickle c = Ok g -> c = remote) -> unpickle remote = Ok good ->
  wsteps zero remote unpickle (mk_world e ns (repeat AtCheck n)) w ->
  nth_error (procs w) p = Some (Finished (Returned f)) -> f = good.
Proof.
  intros B Fit zero remote unpickle good e ns n w p f Only Good St Hp.
  destruct (Proofs.Io.returned_inv zero remote unpickle _ _ St) with (p := p) (f := f) as [c Hc]; [|exact Hp|].
  - cbn [procs]. intros q g Hq. apply nth_error_In, repeat_spec in Hq. discriminate.
  - pose proof (Only _ _ Hc) as ->. congruence.
Qed.
Print Assumptions c27_concurrent_safe.

(** Two processes at once, nobody is killed, network and disk work: both calls may fail and leave no file. *)
Theorem c27_concurrent_refuted : exists (remote : list nat) (unpickle : list nat -> res nat) good w,
  (forall c g, unpickle c = Ok g -> c = remote) /\ unpickle remote = Ok good /\
  wsteps 0 remote unpickle (mk_world None [] [AtCheck; AtCheck]) w /\
  entry w = None /\ procs w = [Finished (Raised OSError); Finished (Raised ValueError)].
Proof.
  exists [1; 2; 3; 4], ex_unpickle, 99. eexists. split.
  { intros c g. unfold ex_unpickle. destruct c as [|[|[|]] [|[|[|[|]]] [|[|[|[|[|]]]] [|[|[|[|[|[|]]]]] [|]]]]]; intros; congruence. }
  split; [reflexivity|]. split.
  - eapply wsteps_step; [eapply wstep_proc with (i := 0); [reflexivity|cbn; apply step_missing]|cbn].
    eapply wsteps_step; [eapply wstep_proc with (i := 0); [reflexivity|cbn; apply step_open_new]|cbn].
    eapply wsteps_step; [eapply wstep_proc with (i := 1); [reflexivity|cbn; apply step_exists]|cbn].
    eapply wsteps_step; [eapply wstep_proc with (i := 1); [reflexivity|cbn; apply step_damaged with (x := ValueError); reflexivity]|cbn].
    eapply wsteps_step; [eapply wstep_proc with (i := 1); [reflexivity|cbn; apply step_unlink]|cbn].
    eapply wsteps_step; [eapply wstep_proc with (i := 0); [reflexivity|cbn; apply step_write with (k := 4); cbn; lia]|cbn].
    eapply wsteps_step; [eapply wstep_proc with (i := 0); [reflexivity|cbn; apply (step_close 0 [1; 2; 3; 4])]|cbn].
    eapply wsteps_step; [eapply wstep_proc with (i := 0); [reflexivity|cbn; apply step_gone]|cbn].
    eapply wsteps_step; [eapply wstep_proc with (i := 0); [reflexivity|cbn; apply step_unlink_gone]|cbn].
    apply wsteps_refl.
  - split; reflexivity.
Qed.
Print Assumptions c27_concurrent_refuted.
