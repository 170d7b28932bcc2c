# Formal model of menpofit: design

## Layout

* `rocq/theories/Model/X.v`: definitions only. Every definition carries a comment with the
  file and lines of `/repo/menpofit` it models, and says what was simplified.
* `rocq/theories/Spec/X.v`: the specification vocabulary used in theorem statements. Specs do not
  use the model's helpers (they use lists, numbers, predicates readable from the English property).
* `rocq/theories/Proofs/X.v`: lemmas.
* `rocq/theories/Props/X.v`: the final theorems, each one `Proof. exact lemma. Qed.`, followed by an
  `Example` showing that a concrete non-trivial case meets the hypotheses, and `Print Assumptions`.

Names: the theorems of property Cnn are named `cNN_...`. A suffix `_partial` marks a theorem that covers
only part of the English property (a comment says what is missing). A suffix `_refuted` marks a proved
counterexample: the faithful model of the code violates the English property (a finding).

## Modelling style

* Python functions become Gallina functions, branch by branch. Exceptions are values:
  `res A := Ok a | Err e`. Loops become structural recursion, or recursion on the loop budget that the
  code itself has (`max_iters`), never an artificial bound.
* Dynamically typed arguments (`checks.py`) are modelled by an inductive type `pyval` of Python values.
* Mutable objects (image landmark dictionaries, the downloaded file, cached Hessians, model lists) are
  explicit state, threaded through a state/exception monad; crash points are explicit outcomes.
* External calls (features, rescaling, PCA, regressors, unpickling, random numbers, network) are universally
  quantified parameters: theorems hold for every behaviour of the external code, including
  raising at any call. Where the property needs an external law (for instance that an alignment transform maps
  its source to its target) it is a hypothesis, stated in the theorem, and listed here.
* Numbers: sizes/indices are `nat` or `Z`; exact arithmetic stands for floating point (`Qc`, the canonical
  rationals, for transforms and data; `R` where square roots, logarithms or derivatives appear; mathcomp matrices over
  an arbitrary field for linear algebra). Floating point rounding is NOT
  modelled, except for iteration budgets, error curves and their bins (C19, C107: doubles of Flocq).

## Trusted base

* Coq 8.16.1's kernel (the gate checks the compiled files again with coqchk).
* The model being faithful to the Python code as cited: the code was read, not run. Every definition cites the
  lines it models and says what it simplifies.
* No axioms of our own, no plugins, no kernel check switched off. `Print Assumptions` follows each theorem in
  `Props/`. 567 of the 684 theorems are closed under the global context. The others use axioms of Coq's standard
  library only:

  * `ClassicalDedekindReals.sig_forall_dec`, `FunctionalExtensionality.functional_extensionality_dep`: `c111_displacements`, `c111_displacements_defined`, `c115_pretrained`, `c115_raises`, `c115_window`, `c116_lists`, `c116_per_point_refuted`, `c116_proportional`, `c116_two_points_refuted`, `c26_batch`, `c26_ensemble_weight_refuted`, `c26_equal_halves_partial`, `c26_forget_all`, `c26_history_refuted`, `c26_increment`, `c26_not_batch_refuted`, `c36_asm_centre_iff`, `c36_asm_centre_partial`, `c36_asm_centre_sign`, `c36_asm_peak_partial`, `c66_increment_solves`, `c66_increments`, `c66_mccf`, `c66_mosse`, `c67_centre_of_mass`, `c67_degenerate`, `c67_even_window_refuted`, `c67_inside_window`, `c67_scale`, `c67_single_response`, `c67_symmetric_partial`, `c67_unified`, `c90_determined`, `c90_displacements`, `c90_mad_half`, `c90_mad_is_not_the_mean_deviation`, `c90_max`, `c90_median_half`, `c90_robust`, `c93_filters`.
  * `ClassicalDedekindReals.sig_forall_dec`, `ClassicalDedekindReals.sig_not_dec`, `FunctionalExtensionality.functional_extensionality_dep`: `c104_errors`, `c106_reference`, `c110_border`, `c110_small_context`, `c110_training_patch`, `c110_window`, `c20_area_not_invariant`, `c20_bad_normaliser`, `c20_box`, `c20_different_sizes`, `c20_euclidean_metric`, `c20_normalised_invariant`, `c20_one_point`, `c20_rigid`, `c20_rms_metric`, `c20_scaling`, `c20_values`, `c22_other_errors`, `c22_outer_eye_errors`, `c22_wrong_sizes`, `c38_displacement_values`, `c47_unique`, `c50_defined`, `c50_negative`, `c50_reference_shape`, `c51_gaussian`, `c51_list_changed_refuted`, `c51_noise_moves_centre`, `c51_noise_type_identity_refuted`, `c51_percentage_kept_partial`, `c51_scale_unbounded_refuted`, `c51_uniform_partial`, `c51_zero_noise`, `c51_zero_noise_from_shape`, `c51_zero_noise_shape`, `c90_mean_median`, `c90_methods`, `c90_order`, `c90_single`, `c90_units`, `c93_batches_matter`, `c93_reference_shape`, `c94_accepts`, `c94_one_method`, `c94_same_name_refuted`, `c94_table`, `c98_increment`, `c98_short_shape`, `c98_train`, `c99_channels_refuted`, `c99_fit_partial`, `c99_same_patch_partial`, `c99_train`, `c99_window_values`.
  * `ClassicalDedekindReals.sig_forall_dec`, `ClassicalDedekindReals.sig_not_dec`, `Classical_Prop.classic`, `FunctionalExtensionality.functional_extensionality_dep`: `c107_budget`, `c107_budget_limit`, `c107_curves`, `c107_failure_rates`, `c110_response`, `c19_double_bins_partial`, `c19_double_overshoot_refuted`, `c36_asm_centre_refuted`, `c36_asm_gaussian_iff`, `c47_r2logr`, `c47_r2logr2`, `c47_zero_at_centre`, `c59_spline_gradient`, `c89_batches_refuted`, `c89_least_spread`, `c89_one_image`, `c89_order`, `c89_singular_iff`, `c89_two_images_refuted`, `c89_units`, `c89_zero_weight_refuted`, `c93_tree_weights`, `c98_desired_response`.

  (The real numbers of the standard library bring the first ones; square roots, limits and Coquelicot's derivatives the others.)
* External laws that theorems assume are hypotheses of the theorems, never axioms. The main ones: a Procrustes alignment
  is the least squares similarity (C29, C55, C56, C60), alignment and rescaling report the transform
  they applied (C10, C11), a linear solver returns a solution or raises (C42, C61, C62, C66).

## Per-property plan

| id | model | proof |
|----|-------|-------|
| C01 | `Model/Checks.v`: check_callable, check_multi_scale_param, check_max_components, check_sampling, check_graph, check_algorithm_cls over `pyval` | case analysis + list lemmas: Ok result has length n and is the replicate/identity given by the spec; Err exactly otherwise |
| C02 | check_patch_shape, recursion on the number of scales | length n theorem for all but the one-element list; `_refuted` for `[(17,17)]` with several scales |
| C03 | check_scales, recursion on the value | flatten spec, idempotence |
| C04 | check_max_iters with round-half-even | bound by n/2 (lia); `_refuted` for total = max_iters and for "at least one iteration" |
| C05, C06 | (and `Model/ApsResult.v`: the cost lists of a multi-scale pictorial structures result) `Model/RunLoop.v`: one loop skeleton per algorithm family, step function an arbitrary state transformer | induction on the budget: length, trajectory, early stop iff converged |
| C07-C09 | `Model/Result.v`, result classes as records; SDM loops | list/index arithmetic; `_refuted` for LucasKanadeResult and parametric SDM |
| C10-C12 | `Model/Affine.v`, `Model/Fitter.v`: `_prepare_image`, `_fit`, `fit_from_shape` in a state/exception monad on landmark maps, transforms are 2D affine maps over Qc | algebra of affine maps (`field`), induction over scales; `_refuted` for the feature-change order, for the features [f,g,g], for landmarks on exceptions |
| C13, C14 | `Model/Perturb.v` | counting, key sets; `_refuted` with a box glob at later scales |
| C15, C36 | `Model/Base.v`: batch, build_grid | well-founded induction on the stream |
| C16, C49 | `Model/Train.v`: training state machines of AAM, CLM, ATM, APS, Unified | invariant over histories (induction on the list of batches and calls); `_refuted` for ATM templates and unified reference shape |
| C17 | `Model/Recon.v` | equals spec for <= 2 scales; `_refuted` for 3 |
| C18, C19 | `Model/Stats.v` over Q | counting lemmas; Simpson sum; `_refuted` for the failure rate when the last bin overshoots |
| C20, C50 | `Model/ErrorR.v` over R | real analysis (sqrt) |
| C21, C22 | `Model/Face.v` | list index lemmas for all lists of the right length |
| C23, C24 | `Model/PadCrop.v`: pad, crop, padded_size, fft_convolve2d_sum sizes | lia; `_refuted` for zero margin and small patches |
| C25, C41, C42, C33 | `Model/Regression.v`, `Model/LinAlg.v`: mathcomp matrices over a field | Woodbury identity; normal equations; `_refuted` for alpha <> 1; state leak refuted |
| C26 | `Model/CorrFilter.v`: spectral sums per frequency over Qc | `_refuted`; closed form of the actual increment |
| C27, C28 | `Model/Io.v`: file system state, crash points, kwargs dictionaries | invariants over call histories |
| C29, C32 | `Model/ModelInstance.v` | state machine invariant; chain rule; `_refuted` with rotation |
| C30, C31 | `Model/Jacobian.v` over Qc (polynomial maps: exact first-order expansion) | `ring` / `field` |
| C34 | `Model/PyInt.v`: `is` on small integers | `_refuted` above 256 |
| C35 | `Model/ProbMap.v` over Qc | sums; `_refuted` for degenerate maps |
| C37, C38 | `Model/Result.v` | index arithmetic; `_refuted` for labels |
| C39 | `Model/SdmTrain.v` | loop invariant |
| C40 | `Model/Checks.v` set_models_components | case analysis |
| C43 | `Model/Dlib.v` | Z/Q truncation |
| C44 | `Model/Sampling.v` | index lists |
| C45 | `Model/Densify.v` | list lemmas |
| C46 | `Model/Base.v` print_progress | trivial by induction over the generator |
| C47 | `Model/Rbf.v` over R | Coquelicot `is_derive` |
| C48 | `Model/Einsum.v`: einsum subscript parser and shape checker | every call raises: `_refuted` |
| C51 | `Model/Noise.v` | bounds for all draws; `_refuted` for the scale draw |
| C52 | `Model/Checks.v`: the documented values of sampling, components, diagonal | case analysis; `_refuted` |
| C53 | `Model/PadCrop.v`: sizes of fft_convolve2d and fft_convolve2d_sum in every mode | size arithmetic; `_refuted` for spectra and small filters |
| C54 | `Model/History.v`: MAP updates of forward and inverse algorithms over an arbitrary real field | optimality of regularised normal equations; `_refuted` for inverse |
| C55, C56 | `Model/ModelInstance.v`: PDM, GlobalPDM, OrthoPDM as state machines | projections are closest points; idempotence; `_refuted` after increments of OrthoPDM |
| C57 | `Model/Jacobian.v`: chain rule of model-driven transforms, the cached dW/dl | derivative by exact first-order expansion; induction over call histories |
| C58, C59 | `Model/Jacobian.v`, `Model/Rbf.v`: thin plate splines, d_dx | linear systems over a field, Coquelicot for kernels; `_refuted` for d_dx |
| C60 | `Model/Densify.v`: LinearOrthoMDTransform and its sparse targets | least squares and projections; `_refuted` for rotated instances and stale bases |
| C61, C62, C64, C65 | `Model/Residual.v`: SSD, ECC, GradientImages, GradientCorrelation with the FA, FC and IC algorithms | matrices over a real closed field; `_refuted` as listed below |
| C63 | `Model/Fourier.v`: FourierSSD over an arbitrary numClosedField with a primitive root of unity | discrete Plancherel; `_refuted` for the cost with a kernel |
| C66 | `Model/CorrFilter.v`: mosse and mccf per frequency over the reals | normal equations give the unique minimiser |
| C67 | `Model/MeanShift.v`: mean shift of one landmark over its response map, real arithmetic, nan as a value | the weighted mean equals the centre of mass `mass_offset`; bounds, symmetry and bias follow from it |
| C68 | `Model/Updates.v`: CLM increments; `clm_update` on the OrthoPDM of `Model/ModelInstance.v` | exact second order expansion of the objective; orthonormal Jacobian at the mean pose composed with the pose of the state |
| C69 | `Model/Updates.v`: project-out and alternating increments, reported cost | exact expansion, projection lemmas of C42; witnesses with identity Jacobians |
| C70 | `Model/Updates.v`: forward and inverse APS increments, masked precision, costs, vectorised Jacobian | exact expansion; the masked precision is a congruence of the full one |
| C71 | `Model/Regressors.v`: PCR, optimal linear and Procrustes training and prediction over a real closed field; svd, pca and pinv are oracles specified by orthogonality | normal equations and row space membership; gram arguments for the whitened second stage; trace bound over contractions |
| C72 | `Model/ClmFitter.v`: the world of one trained CLM: shape models per scale, fitters built from them, fits; expert responses and scale transforms are oracles | frame argument: a fit reads only the components of the shape models, an invariant of every history; witness sessions on a four point model |
| C73 | `Model/AamRuns.v`: `run` of Simultaneous, Alternating, ModifiedAlternating and Wiberg (forward and inverse) as instances of the loops of `Model/History.v`; warping and steepest descent images are oracles | a trace of every run; per turn the normal equations of the appearance block; witness model with two pixels |
| C74 | the same, with `fc_run` of `Model/History.v` for project-out | simulation between the loops; Schur complement of the joint Hessian |
| C75 | the same and the priors of `_precompute` | positive definiteness of the regularised Hessians; the shape error of `A_m.dot` is modelled |
| C76 | `Model/SdmAlgorithm.v`: the four families of supervised descent algorithms as objects with regressors, shape model and appearance model, `_train` with the models built only when absent, histories of calls | comparison of two trainings from related states; induction over the history; witness worlds |
| C77 | the same with `fit_parametric_shape` and `fit_non_parametric_shape`; regressors are oracles whose row by row prediction is proved for the five regressors | simulation of the training loop by the fitting loop, sample by sample; for the OrthoPDM the idempotence of C56 |
| C78 | the same with `print_parametric_info` moving the shape model | the state of the model is forgotten by the next set_target (proved for the OrthoPDM of `Model/ModelInstance.v`) |
| C79 | `Model/Convolution.v`: fft_convolve2d of `Model/PadCrop.v` with the discrete Fourier transforms of `Model/Fourier.v`, ifftshift and the real part in place | the convolution theorem for both axes; index arithmetic from padding, shift and crop to a convolution on a torus; witness images and filters of every size |
| C80 | the same with the expert's padded filters, several channels and the filter that training crops from the inverse transform | the same with a sum over channels; the place of the origin of the trained filter against the centre of the convolution, by parity |
| C81 | `Model/SdAam.v`: the supervised descent AAM algorithms with the transform whose target feature extraction sets, and the model-driven transform that synchronises its shape model twice | statelessness of the transform threaded through feature extraction; induction over the cascade; idempotence of the OrthoPDM (C56) for the first step and recovery (C77) for the later ones |
| C82 | `Model/History.v` (inverse compositional runs), `Model/SdFeatures.v` with `Model/SdAam.v` | the project-out operator annihilates the components; two runs related by equal Hessian, parameters and error modulo the components, by induction on the iterations; witness images x^2 and x^2 + x for the forward algorithm |
| C83 | `Model/SimilarityModel.v`: the similarity basis, the Procrustes alignment in closed form, the GlobalSimilarityModel; `Model/ModelInstance.v` for the models with global transforms | the alignment composes with similarities of the target; the closest weights are unchanged, by ring identities over the complex structure of the plane |
| C84 | `Model/ClmFitter.v` (fits over all scales), `Model/SdmAlgorithm.v` with `Model/SdmOrtho.v` and `Model/SdmVectors.v` | a relation between states (same weights, similarity weights moved by the projection of the shift, moved target) kept by every model call, by induction on the iterations and scales |
| C85 | `Model/RunLoop.v` (the loops), `Model/Fitter.v` (all scales) | runs as trajectories (`Proofs/RunLoop.v`): a trajectory with smaller budget and looser test is a prefix, by induction on the budget; the last scale by decomposing the zip over the scales |
| C86 | `Model/History.v` and `Model/AamRuns.v` (runs of algorithm objects), `Model/ClmFitter.v` | loop lemma: a run that used up its budget while moving equals the loop continued from the state it left; that setting the final shape restores this state is a hypothesis for AAM/ATM transforms and proved for OrthoPDMs (C07's idempotence); counterexamples for the alternating algorithms and for Wiberg and simultaneous inverse compositional |
| C87 | `Model/Instances.v`, `Model/PyIndex.v`: PCA models over any real closed field with square roots of eigenvalues; rendering (frame, transform, warp) recorded but not interpreted | sums over the components; covering by dividing the weights by the square roots; independence gives the member that cannot be drawn |
| C88 | `Model/TrainImages.v`: the image preparation of every `_train_batch` (three variants of one loop) and dlib's, next to `Model/Fitter.v`'s `_prepare_image` | the two loops run in step (induction on the scales with the previous features related); tolerance of `np.allclose` and `sigma` refuted |
| C89 | `Model/ApsGraph.v`: `_compute_minimum_spanning_tree` over the reals (weights, zero entries, isolated vertices; the tree is any minimum spanning tree) and the use of `deformation_graph` over batches | the quadratic forms of the likelihoods sum to a constant, so weights are increasing in the determinant; determinants of covariances under permutations and affine maps; Cauchy-Schwarz with equality case for the errors |
| C90 | `Model/Summary.v`: `mad`, `compute_statistical_measures`, `displacements_stats` with np.median, np.std, np.max over the reals | insertion sort is the sorted permutation; counting around the middle elements; the median minimises absolute deviations (by counting), Jensen for the standard deviation |
| C91 | `Model/LkTemplate.v`: `LucasKanadeFitter.__init__` with `_prepare_template`, the runs of the three algorithms over `lk_loop`, and the fit of `Model/Fitter.v` | two preparations of alike images give alike images; a run from a fixed point of warp, increment and update stays; induction over the scales with invertible frames |
| C92 | the loops of `Model/History.v` and `Model/AamRuns.v`; the training images of `Model/TrainImages.v` and the fit of `Model/Fitter.v` | increments vanish on residuals in the span of the components (Penrose equations); a turn that changes nothing is repeated; induction over scales with C88 |
| C93 | `Model/ErrorR.v` (reference shape), `Model/Train.v`, `Model/SdmTrain.v`, `Model/CorrFilter.v`, `Model/Regression.v`, `Model/Regressors.v`, `Model/ApsGraph.v` | folds of commutative operations over permutations; Gram matrices of permuted rows; the cascade rewritten as a map over (image, truth, shapes, targets) blocks and induction over its iterations |
| C94 | Model/StatTable.v: the frame as index and columns, the filling loop, sort_values, on top of Model/Summary.v | filling with distinct names is a combine; insertion of positions by key is a sorted permutation; rows of the permuted frame |
| C95 | Model/Warp.v: warp_images with its one mutated transform, extract_patches, the appearance model's template, the three kinds of interfaces and their moves | invariant: the warp of the transform leads to the target of the shape model; the training loop pair by pair; with C88 for the prepared images |
| C96 | option handling of all sixteen constructors (Model/Options.v) over the checks of Model/Checks.v | soundness and completeness against a table of documented options; refutations for single-number scales (ATM, CLM families), nested scales, default sd_algorithm_cls |
| C97 | training of all families on a heap of mutable images (Model/TrainHeap.v): exceptions keep what was written | frame invariant (only fresh objects are written) for all families but DlibERT; for DlibERT marking and unmarking are shown inverse, with refutations for failures in between and for repeated images |
| C98 | the ensemble of correlation filter experts (Model/Ensemble.v) over abstract filter training and convolution | non-interference between landmarks for train, increment and predict_response; peak of the Gaussian response |
| C99 | the default patch normalisation of the experts over the reals (Model/Ensemble.v) | algebra of centring and scaling; equality of the trained ensembles and of the responses; refutation for two channels |
| C100 | the training loop of the cascade with its concrete regressors on matrices (Model/CascadeError.v) | trace of the loop (Proofs/CascadeTrace.v); energy argument: the residual of a least-squares projection; fitting replays the trace; refutations on one-landmark worlds |
| C101 | align_shape_with_bounding_box and the start of a fit over a real closed field (Model/InitialShape.v) | closed form of the Procrustes alignment of two rectangles; tight boxes |
| C102 | the first scale of supervised descent training and of fit_from_bb on the same box (Model/InitialShape.v) | equivariance of the alignment gives an exact condition; refutation with two four-point shapes of the same box |
| C103 | increment with failures at any batch, scale and kind (Model/Train.v, carry_on) | invariant with a batch list per model; induction over kinds, scales, batches and calls |
| C104 | OrthoPDM, constrained local models, supervised descent, bounding boxes and errors on renumbered landmarks (Spec/Renumber.v) | each call commutes with a permutation of the rows; for training a simulation of the whole algorithm (Proofs/SdmSimulation.v), the regressors by orthogonal change of columns |
| C105 | the whole supervised descent training on images each moved by its own amount (Spec/Placement.v) | a simulation of train in which each sample carries its own offset (Proofs/SdmOffsets.v); for the shape model the offset becomes a constant added to the parameters |
| C106 | Model/Fitter.v, Model/Result.v, Model/TrainImages.v and compute_reference_shape on enlarged pictures (Spec/Resolution.v) | the affine maps to the user's image get the factor, which cancels in the hand-over between scales because rescaling fixes the origin; the landmark dictionary is mapped entry by entry |
| C107 | `Model/Doubles.v`: the divisions of check_max_iters, compute_cumulative_error and the failure rate, and np.arange, rounded to binary64 | error bounds by ulps against the distance of the quotient to the next half integer, or of two fractions to each other |
| C108 | `Model/LinearResult.v`: algorithm_result of the linear interfaces, on the transform of `Model/Densify.v`; d_dp of that transform (C32) | invariant of the states of a run: target and global transform are functions of the parameter vector and the model, so that from_vector in any later state gives the same target |
| C109 | `Model/FilterImages.v`: spatial_filter_images, frequency_filter_images and n_sample_offsets on the experts of `Model/Convolution.v` | inverse transform of the transform (C63), crop of pad (C23), the reversal of a real array multiplies its spectrum's conjugate by phases of modulus one; fftshift as an index map |
| C110 | `Model/Ensemble.v`: generate_gaussian_response, generate_cosine_mask, _extract_patch | real analysis: the Hann window as the square of a cosine that decreases with the distance from the middle; the exponential is increasing |
| C111 | `Model/Plots.v`: the curves, abscissae and legends that reach menpo's plot_curve | pointwise over the lists; the counting lemmas of C18 |
| C112 | `Model/Gpa.v`: align_shapes with menpo's generalised Procrustes analysis (modelled from menpo's documented algorithm, since menpo is not in /repo) | induction on the iterations: the target stays centred, turns with the shapes, depends only on the multiset of shapes; copies are a fixed point; the batches of C15 |
| C113 | `Model/Warnings.v`: isinstance over the classes that are tested for and any classes derived from them; the warnings of the first batch; the constructors' checks | the test decides inheritance (induction on the class), case analysis on the batches of C15 |
| C114 | `Model/Pretrained.v`: filename_for_fitter, url_of_fitter, path_of_fitter; load_fitter of C27 on a disk with many files | a file name is read from its end: the last mark before a run of digits is unique; induction on the history |
| C115 | `Model/Preprocess.v`: image_greyscale_crop_preprocess with menpo's crop | floor, ceiling and clipping per axis; C28 instantiated with the translation |
| C116 | `Model/NoisyTarget.v`: noisy_target_alignment_transform with numpy's broadcasting of lists | induction on the points; case analysis on the length of the list |
| C117 | `Model/ViewOptions.v`: _check_multi_argument on the caller's lists, the checks of view_image_multiple_landmarks and the values per group | induction on the options; invariant: a list is as the caller wrote it, or was one value and is now repeated |

Not modelled: the rendering of figures (C111 has what is handed to the renderer), printed text, pandas itself (C94 has
the table that is built), floating point rounding other than in C19 and C107, performance, image resampling itself
(warping and rescaling are oracles), PCA numerics, dlib internals, the menpo library (its documented behaviour at
call sites is modelled and cited in comments).

## Wrong programs

`seeded/LOG.jsonl` has one line per edited model. Every edit was made in a copy outside this directory and rebuilt there.

* `theorems_failed` comes from the rebuild. Where a file of lemmas stopped compiling, the property files that import it could not be checked: all their theorems are listed, and the line has a note that says so. A failed proof script does not by itself show that the statement became false.
* In some batches (the eighty or so lines about shape models, noise, descent features, face conversions and convolution) the property number written down before the run was wrong or missing and was corrected afterwards from the theorems that failed, so for those lines the agreement between `claim` and `theorems_failed` is not evidence. The description of the edit is the original one.
* Lines with a note about an equivalent program break no claim.

## Findings: where the code disagrees with the property

Each line says what is proved and what is refuted (theorems with the suffix `_refuted`), so that what remains of a
`partial` claim is a fact about the code, not an open proof.

* C02 (Patch shapes: one patch shape per scale): Every accepted value yields one patch shape per scale except the one-element list [p], which yields a single patch shape whatever n_scales (checks.py 229 passes 1 to the recursive call): refuted. Witnesses: `c02_one_element_list_refuted`.
* C04 (The iteration budget is split over the scales): Equal split within half an iteration per scale, lists verbatim and errors are proved; 'the total is max_iters' and 'a positive budget gives an iteration' are refuted (rounding of max_iters / n_scales, checks.py 308-313). Witnesses: `c04_total_refuted`, `c04_no_iteration_refuted`.
* C06 (Shapes, parameters and costs of a run line up): All algorithm families proved; c06_aps_multi_scale carries the three cost lists of pictorial structures through the multi-scale result (aps/result.py); Lucas-Kanade costs are one short (the final shape has no cost): refuted. Witnesses: `c06_lucas_kanade_costs_refuted`.
* C07 (Multi-scale result bookkeeping): Proved for all result classes; an AAM result whose first scale has appearance parameters and a later scale has none raises TypeError: refuted. Witnesses: `c07_mixed_appearance_refuted`.
* C08 (Lucas-Kanade result reports the iterations performed): Refuted for every run: lk/result.py subtracts the number of scales twice; the partial theorem gives the exact value reported. Witnesses: `c08_n_iters_refuted`.
* C09 (Supervised descent results report the iterations performed): Proved for non-parametric and AAM supervised descent; refuted for parametric supervised descent (the shape list lacks the initial projection) and for an empty cascade (raises). Witnesses: `c09_parametric_refuted`, `c09_empty_cascade_refuted`.
* C10 (Reported shapes are in the coordinates of the user's image): Proved when the per-scale features are all equal or never repeated after a change; refuted for features [f, g, g] (the affine of the wrong scale is used, fitter.py _prepare_image). Witnesses: `c10_late_repeat_affine_refuted`, `c10_late_repeat_refuted`.
* C11 (A scale starts where the previous one ended): Proved for equal features or commuting transforms; refuted in general when features change (the order of the two transforms is swapped). Witnesses: `c11_feature_change_refuted`, `c11_discontinuity_refuted`.
* C12 (Fitting leaves the user's image untouched): Proved when image preparation does not raise and the temporary names are free; refuted when a resize, feature or alignment raises (the temporary group stays) and for a user's group of the same name (lost). Witnesses: `c12_exception_leaves_group_refuted`, `c12_existing_group_lost_refuted`.
* C13 (Perturbation generation attaches the advertised boxes): Proved for fresh images; refuted for images without a matching group (silently no boxes) and for a second call with fewer boxes (the callable also yields old boxes). Witnesses: `c13_unmatched_image_refuted`, `c13_stale_boxes_refuted`.
* C14 (Every perturbed shape is trained on at every scale): Proved without a box glob; refuted with one (provided boxes are dropped after the first scale) and when the features change between scales. Witnesses: `c14_dlib_provided_boxes_dropped_refuted`, `c14_provided_boxes_dropped_refuted`, `c14_feature_change_refuted`.
* C16 (Batched and incremental training keep one model per scale fed with every sample once): Proved for AAM, CLM, APS and patch/holistic models over all histories of calls that succeed; refuted: no models with batch size 0 or no items, failed increments, two templates per scale in batched ATMs, one dense frame for all scales in linear models. Witnesses: `c16_no_models_refuted`, `c16_failed_increment_refuted`, `c16_atm_templates_refuted`, `c16_linear_frames_refuted`.
* C17 (Appearance reconstructions use the right scale's model): Proved for one and two scales; refuted for three or more (aam/result.py adds the wrong offset). Witnesses: `c17_third_scale_refuted`.
* C18 (Cumulative error distribution laws): All laws proved for arrays; refuted for the documented argument types (two lists raise TypeError) and for an empty error list without bins (returns []). Witnesses: `c18_empty_no_bins_refuted`, `c18_lists_refuted`.
* C19 (Area under curve and failure rate): Exact formulas and monotonicity proved in general, the stated bounds when the step divides the range and it starts at 0; refuted otherwise (overshooting grid, division by max_error); in double precision the last bin may be one step too far even then (c19_double_bins_partial gives the two cases, c19_double_overshoot_refuted the case step 0.05, maximum 0.1). Witnesses: `c19_double_overshoot_refuted`, `c19_overshoot_refuted`, `c19_area_above_one_refuted`, `c19_min_error_refuted`.
* C23 (Padding then cropping restores the image): Proved exactly: cropping undoes padding iff at least two rows and columns were added; with zero or one the result is empty (slice stop -0): refuted. Witnesses: `c23_zero_margin_refuted`.
* C24 (Expert responses cover the search window): Proved for patches of at least 6 x 6 pixels; refuted for sides of 2 to 5 pixels (empty response); 1 pixel raises. Witnesses: `c24_small_patch_refuted`.
* C25 (Incremental linear regression equals retraining): Proved for alpha = 1, with the exact weighting for other alpha; refuted for alpha = 0 (the default), other alpha, and IIRLRegression (increment raises). Witnesses: `c25_no_regularisation_refuted`, `c25_iirl_increment_refuted`, `c25_alpha_refuted`.
* C26 (Incremental correlation filters equal batch training): The exact closed form of every increment history is proved; equality with batch training is refuted, and the ensemble counts the new images twice. Witnesses: `c26_not_batch_refuted`, `c26_history_refuted`, `c26_ensemble_weight_refuted`.
* C27 (Loading a pretrained fitter recovers from damaged downloads): Proved for every history of crashes of one process; refuted: any loading error removes a complete file, and two concurrent processes may both fail. Witnesses: `c27_good_file_removed_refuted`, `c27_concurrent_refuted`.
* C28 (Wrapped fitters honour user options and report in original coordinates): Proved for all wrapped fitters whose results have an initial shape; refuted for DlibWrapper with a preprocessing (raises). Witnesses: `c28_no_initial_shape_refuted`.
* C29 (Shape model parameter vectors round trip): Proved for vectors of the right length over all operation histories; refuted: too short vectors are accepted, too long ones leave weights and target inconsistent. Witnesses: `c29_short_vector_refuted`, `c29_failed_call_refuted`.
* C32 (Shape model Jacobian obeys the chain rule): Proved without rotation; the same for the dense transform of linear models (c32_linear_partial, c32_linear_rotation_refuted); refuted with any rotation (the linear part of the transform is applied on the wrong side, modelinstance.py d_dp). Witnesses: `c32_rotation_refuted`, `c32_global_pdm_refuted`, `c32_linear_rotation_refuted`.
* C33 (A fit does not depend on earlier fits): Proved for forward and for maximum likelihood inference; refuted for inverse compositional algorithms with map_inference (the prior's Hessian accumulates in the object). The exact drift is proved. Witnesses: `c33_inverse_map_refuted`.
* C34 (MAP solution of the joint problem does not depend on the number of parameters' representation): Proved up to 256 parameters; refuted from 257 (comparison of integers with 'is'). Witnesses: `c34_shape_map_refuted`, `c34_all_map_refuted`.
* C35 (Probability maps are probability distributions): Proved when no map is constant; refuted for constant maps (raise) and one-pixel maps (value 1/2). Witnesses: `c35_constant_map_refuted`, `c35_one_pixel_refuted`.
* C36 (The search grid is centred and aligned with responses): build_grid proved for every size; ASM: for every Gaussian kernel, a peak at the centre stays put if and only if both window sides are 1 modulo 4, and the sign of the error for the others is given (c36_asm_centre_sign); refuted for a 3 x 3 window. Witnesses: `c36_asm_centre_refuted`.
* C37 (Iteration labels of result viewers): Proved for non-parametric results and for the label variants named in the partial theorems; refuted for the other variants (numbers off by two, hidden reconstructions). Witnesses: `c37_parametric_initial_refuted`, `c37_multi_scale_no_initial_refuted`, `c37_reconstruction_hidden_refuted`.
* C39 (Regression targets stay consistent during cascade training): Proved when every image has the same number of perturbations; refuted otherwise (rows never written). Witnesses: `c39_uneven_perturbations_refuted`.
* C44 (Sampling masks select the same pixels in every channel): Masks, positions and holistic steps proved; patches proved for boolean patterns; refuted for integer steps on patches and for sampling from a scale (pixels outside the mask). Witnesses: `c44_from_scale_refuted`, `c44_patch_step_refuted`.
* C48 (Model-driven transforms can be composed): GlobalMDTransform: evaluates or raises LinAlgError exactly for singular Gram matrices; ModelDrivenTransform: refuted, every call raises (einsum subscripts). Witnesses: `c48_plain_refuted`.
* C49 (User-supplied reference shape is used): Proved for AAM, CLM, ATM, APS; refuted for UnifiedAAMCLM, which ignores the given reference shape. Witnesses: `c49_unified_refuted`.
* C51 (Uniform noise is bounded by the requested percentage): Rotation and translation bounds and zero noise proved; refuted: the scale is drawn from a normal distribution, one-element lists are changed, equal strings are refused. Witnesses: `c51_scale_unbounded_refuted`, `c51_list_changed_refuted`, `c51_noise_type_identity_refuted`.
* C52 (Documented option values are accepted, out-of-range ones refused): The diagonal rule is proved; documented int sampling and None entries are refused, out-of-range component counts accepted: refuted. Witnesses: `c52_sampling_int_refuted`, `c52_sampling_none_entry_refuted`, `c52_component_range_refuted`.
* C53 (FFT convolution output sizes): Sizes proved for filters of at least 6 x 6 pixels; refuted for smaller ones and for filters given in the frequency domain. Witnesses: `c53_fft_filter_refuted`, `c53_spectrum_refuted`.
* C54 (With map_inference the prior pulls towards the model mean): Proved for forward algorithms; refuted for inverse algorithms with map_inference (sign of the increment). Witnesses: `c54_inverse_refuted`.
* C55 (Zero parameters generate the mean shape): Proved for PDM, GlobalPDM and OrthoPDM before increments; refuted for OrthoPDM after an increment. Witnesses: `c55_ortho_incremented_refuted`.
* C59 (Warp derivatives with respect to the point): Piecewise affine: derivative iff the triangle is translated; TPS: refuted unless as many points as landmarks, where the sign of the kernel part is wrong. Witnesses: `c59_pwa_refuted`, `c59_tps_sizes_refuted`.
* C60 (Targets of linear model-driven transforms): Dense instances and best fits proved; landmarks only: proved without rotation and with a current basis, refuted for rotated instances and for a stale basis. Witnesses: `c60_rotated_instance_refuted`, `c60_stale_basis_refuted`.
* C62 (Lucas-Kanade fitting is driven by the template): Proved for SSD, ECC and for the gradient residuals with the inverse algorithm; refuted for the gradient residuals with the forward algorithms, which never look at the template. Witnesses: `c62_forward_gradient_refuted`.
* C63 (FourierSSD computes the same increments as SSD): Equality with SSD proved for all sizes, channels and kernels; refuted: the cost with a kernel raises ValueError for nearly all image shapes. Witnesses: `c63_kernel_cost_refuted`.
* C64 (ECC is a correlation and ignores contrast and brightness): Cost, invariances and refusals proved; refuted: an ECC increment can lower the linearised correlation (forward and inverse). Witnesses: `c64_increase_refuted`, `c64_increase_inverse_refuted`.
* C65 (Gradient correlation compares gradient orientations): Orientation and cost proved; the steepest descent images are right when the crossed derivatives agree, refuted in general. Witnesses: `c65_sdi_refuted`, `c65_sdi_other_order_refuted`.
* C67 (The landmark mean shift moves each landmark to the centre of mass of its responses): Proved for all windows and kernels; refuted: in a window with an even number of rows a uniform response moves the landmark, since the window is not centred on it. Witnesses: `c67_even_window_refuted`.
* C68 (A constrained local model update is the best parameter change for the displacements): Optimality (ML and MAP), refusals and the exact effect of an update in any pose proved; refuted: the Jacobian is computed once, in the pose of the mean, so that after half a turn an update moves the landmarks the opposite way. Witnesses: `c68_half_turn_refuted`.
* C69 (The unified AAM-CLM update minimises the weighted sum of both terms): Proved for the alternating algorithm with and without prior; project-out without prior proved to minimise the unweighted sum; refuted: project-out ignores the weight without prior and covers half of the way with it; the reported cost does not weight the landmark term (exact characterisation proved). Witnesses: `c69_weight_ignored_refuted`, `c69_half_step_refuted`.
* C70 (Active pictorial structures jump to the minimum of their quadratic objective): Minimum, masking and ordering proved; refuted: with a sampling mask the costs raise ValueError; the reported deformation cost depends on the pose although the objective does not. Witnesses: `c70_masked_cost_refuted`, `c70_pose_cost_refuted`.
* C71 (The dimension reducing regressors are least squares regressors on the directions they keep): Least norm least squares, agreement of the two regressors, the exact kept part and Procrustes optimality proved; refuted: the kept part is always below the requested one (all predictions are zero when the first direction carries it alone); with fewer outputs than features Procrustes fits the features from the outputs, not the outputs; whitening inverts the eigenvalues instead of removing them and is not applied at prediction; principal component regression raises on a zero singular value. Witnesses: `c71_procrustes_refuted`, `c71_pcr_kept_refuted`, `c71_whiten_refuted`.
* C72 (Fitters of one trained model do not disturb each other): Fits never affect each other, for any history; constructions that keep the numbers of components do not either (both proved for every history, also of calls that raise); refuted: a construction with another number makes older fitters raise ValueError, no number means the active ones and not all, and a fitter constructed after a fit keeps the Jacobian of the pose the fit left. Witnesses: `c72_other_count_refuted`, `c72_count_refuted`, `c72_none_refuted`, `c72_pose_refuted`.
* C73 (The appearance parameters of an AAM fit explain the image at the fitted shape): Proved for modified alternating (all runs, forward and inverse, with and without prior) and for the first parameters of every algorithm; for the others the image that the reported parameters do explain is characterised exactly, and refuted by one-turn runs: Wiberg counts the increment twice, alternating lags one turn behind, simultaneous relies on the linear prediction. Witnesses: `c73_wiberg_refuted`, `c73_alternating_refuted`, `c73_simultaneous_refuted`.
* C74 (Forward algorithms that eliminate the appearance agree): Proved for all runs of the forward algorithms, exceptions included.
* C75 (With map_inference a singular system never stops an AAM fit): Proved for project-out (forward), Wiberg, modified alternating and simultaneous with positive priors; refuted for alternating: A_m.dot and A_m.T.dot are swapped, so that every fit with map_inference raises ValueError unless there are as many pixels as components. Witnesses: `c75_alternating_refuted`.
* C76 (Training a supervised descent algorithm again is training a new one): Proved for every algorithm without models of its own and whenever the kept models are those of the new data; it is proved that the models are always those of the first data; refuted with a shape model and with an appearance model, which train() does not rebuild. Witnesses: `c76_shape_model_refuted`, `c76_appearance_model_refuted`.
* C77 (Fitting a training image from a training perturbation retraces the training): Proved in full without shape model; with a shape model proved for perturbations the model can generate (for the OrthoPDM: and estimates whose points do not coincide); refuted for other perturbations: training extracts the first features at the perturbed shape, fitting at its projection. Witnesses: `c77_projected_start_refuted`.
* C78 (Verbose training trains the same): Proved for all four families; for the OrthoPDM from the independence of set_target from the state of the model.
* C79 (FFT convolution computes the linear convolution): Proved exactly as a convolution on a torus, and as the linear convolution centred at the middle of the filter for every pixel not on the border and filters of odd size (at least 7); refuted on the border, where the opposite border leaks in because the extension is one pixel too short, and for filters of even size, whose centre depends on the parity of the image size. Witnesses: `c79_border_refuted`, `c79_even_refuted`.
* C80 (Expert responses are aligned with the filter that was trained): Proved for odd patch and even context sizes (the defaults): pixels off the border are the sum of convolutions with the trained filters around their origin; refuted for odd context sizes and for patch sides that are multiples of four, where every response is moved by one pixel. Witnesses: `c80_odd_context_refuted`, `c80_even_patch_refuted`.
* C81 (Supervised descent AAM fits from training perturbations retrace the training): Proved for every stateless transform that settles and finds back what it generates, and for the OrthoMDTransform of the library unless an intermediate estimate has all its points in one place.
* C82 (Project-out fits do not see the appearance the model explains): Proved for project-out inverse compositional fits (with and without map_inference and costs) and project-out supervised descent (fits and training), with the converse for appearance weights; refuted for the project-out forward compositional algorithm, whose Jacobian is that of the image. Witnesses: `c82_forward_refuted`.
* C83 (Shape models follow the shape they are given): Proved for the GlobalPDM (targets with a best angle), the OrthoPDM (every target that can be set) and the GlobalSimilarityModel, with the closed-form Procrustes alignment over any real closed field; when no angle is best menpo picks some rotation and nothing is claimed.
* C84 (Moving the image and the initial shape moves the fit by the same amount): Proved for gradient descent CLMs over all scales (both kinds of algorithm, with and without the prior), for supervised descent with and without an OrthoPDM, for alignments that follow shifts, which the Procrustes alignment does. What the moved image looks like around the moved shapes is a hypothesis (the sampling of patches is external).
* C85 (A smaller iteration budget or a looser tolerance cuts the same run short): Proved for the five optimisation loops (Lucas-Kanade, Gauss-Newton with and without appearance, pictorial structures, constrained local models) and, over all scales, for a larger budget of the last scale. Supervised descent has no budget or tolerance.
* C86 (A fit can be continued from its final shape): Proved for project-out and ATM algorithms, modified alternating, Wiberg and simultaneous forward compositional (without the prior) and for constrained local models. Refuted for the alternating algorithms: what the last shape increment explains is kept across the iterations of one call but not across calls. Refuted for Wiberg and simultaneous inverse compositional too: a new call computes the appearance parameters of the Jacobian afresh from the warped image; supervised descent has no iterations to continue. Witnesses: `c86_alternating_refuted`, `c86_wiberg_inverse_refuted`, `c86_simultaneous_inverse_refuted`.
* C87 (Instances are the mean plus the weighted components, and every instance can be drawn at random): instance and shape_instance proved for every class. random_instance proved for ATM and APS. Refuted for AAM and unified AAM-CLM: the number of appearance weights drawn is the number of active shape components, so every pair can be drawn exactly when the two numbers agree (c87_aam_random_covers_iff), and every draw raises ValueError when the shape model has more. MaskedATM instances are built with the list of the patch shapes of all scales (refuted). Linear AAMs and ATMs raise NotImplementedError (in the statement). Witnesses: `c87_aam_random_refuted`, `c87_aam_random_raises_refuted`, `c87_masked_atm_patch_refuted`.
* C88 (A model is fitted to images prepared as those it was trained on): Proved for all images, features and scales outside np.allclose's tolerance around 1 and without smoothing; the code violates the rest: c88_nearly_one_refuted (a scale within the tolerance of 1 is rescaled when fitting but not in training) and c88_unified_sigma_refuted (with sigma, a unified AAM-CLM is trained on smoothed and fitted to unsmoothed images). c88_clear_scales_iff says which scales are concerned. Witnesses: `c88_nearly_one_refuted`, `c88_unified_sigma_refuted`.
* C89 (The default deformation tree links the landmarks whose relative positions vary least): Proved for every training set without an edge of weight exactly zero, with the exact condition for LinAlgError (some pair's relative positions on a line). The code violates the rest: two images always raise (c89_two_images_refuted), trained in batches the tree is that of the first batch and not of all images (c89_first_batch, c89_batches_refuted), and a weight that is exactly zero counts as a missing edge, so that units matter (c89_zero_weight_refuted). Witnesses: `c89_two_images_refuted`, `c89_batches_refuted`, `c89_zero_weight_refuted`.
* C90 (Error summaries are order-free, equivariant and robust): Over the reals (no rounding, no NaN); area under curve and failure rate on Model/Stats.v. c90_mad_is_not_the_mean_deviation records that the docstring of compute_statistical_measures, which announces the mean absolute deviation, is wrong.
* C91 (A Lucas-Kanade fitter stays on its own template): c91_templates holds for all features, scales and diagonals; c91_template_stays for fitters whose scales share one kind of features, given that menpo resizes exactly, that a transform of a shape to itself does not move the image and that a matching image gives the zero increment (C61). With features that change between scales the fit leaves the template even when no iteration is performed (c91_feature_change_refuted), since the start of the next scale composes the transforms in the wrong order (C11). Witnesses: `c91_feature_change_refuted`.
* C92 (A fit that starts where the model explains the image stays there): Proved without map_inference for all ten AAM algorithms and both ATM ones (c92_appearance, c92_project_out_*, c92_template_*) and carried through the scales of the fitter for features of one kind (c92_training_images_stay). With map_inference every algorithm leaves an exactly explained image at its first iteration unless all initial parameters, those of the similarity included, are zero (c92_map_refuted): the prior gives the similarity the weight 1, so that a perfectly explained face is pulled towards the position of the reference. Witnesses: `c92_map_refuted`.
* C93 (Training does not depend on the order of the training images): c93_reference_shape, c93_models (one batch), c93_tree_weights (shapes of one length), c93_filters, c93_regression (incremental and indirect linear regression), c93_procrustes and c93_optimal (with components and pseudo-inverses that do not depend on the order), c93_cascade. Outside of the statement: with batches the order decides the reference shape (c93_batches_matter), and with uneven numbers of initial shapes training may fail in one order only (c93_uneven_matter).
* C94 (A table of statistics shows each method's own numbers, best method first): proved for distinct column names (c94_table, c94_accepts, c94_one_method); c94_same_name_refuted: two statistics under one column name overwrite each other, and the table is then sorted by the wrong statistic. Arrays in place of lists and the display precision (a global pandas option) are not modelled. Witnesses: `c94_same_name_refuted`.
* C95 (A model sees of an image at a shape in fitting what it saw in training): c95_training, c95_current, c95_training_sample, c95_template, c95_warped_images (holistic and masked), c95_patch_* (patch-based AAM, ATM, APS), c95_linear_sample (linear models with one scale; c16_linear_frames_refuted for several scales and batches), c95_ground_truth (with C88, from the user's image). Sampling, patch extraction and the warp itself are external functions.
* C96 (Constructors store one valid value per scale for every option): Proved for all constructors when the scales are a sequence of numbers, and for a single number too in all but the ATM and CLM families. Those take len(scales) before normalising it, so a documented single number raises TypeError, and nested scales leave fewer option values than scales. The documented default sd_algorithm_cls=None of SupervisedDescentFitter is always refused. A one-element list of patch shapes is the exception of C02. Witnesses: `c96_single_scale_refuted`, `c96_nested_refuted`, `c96_default_sd_refuted`.
* C97 (Training leaves the user's images untouched): Proved without restriction for supervised descent, AAM, CLM, APS, unified models and ATM. DlibERT writes the group __gt_bb on the caller's images and deletes it after rescaling: proved harmless when training returns and when it raises later; refuted when an image lacks the group or cannot be rescaled (the group stays behind), and a list holding the same image twice can never be trained on (KeyError). Witnesses: `c97_dlib_rescale_refuted`, `c97_dlib_group_refuted`, `c97_dlib_twice_refuted`.
* C98 (Each expert of a CLM is trained at and applied at its own landmark): An increment whose shapes have fewer points than the ensemble has experts drops the surplus experts silently (c98_increment gives the number); a single point or a single expert is broadcast by numpy in predict_response.
* C99 (With the default patch normalisation the experts ignore brightness and contrast): Proved for training in full, and for fitting when all channels of a window change alike. Refuted for images or features with several channels: in fitting the normalisation gets a 4-dimensional array, takes the patches for the channels and normalises all channels of a patch together, unlike in training. The behaviour of menpo's normalize_norm (statistics per entry of the first axis) is an assumption about an external function. Witnesses: `c99_channels_refuted`.
* C100 (A trained cascade never moves its own training shapes further from the annotations): Proved for the ridge regressor (Newton), also for the parameters of an OrthoPDM as long as the shapes it reaches do not collapse to a point, for principal component regression given a right singular value decomposition, and for the optimal linear regressor given right decompositions. The code violates it with the Gauss-Newton regressor (it inverts a regression of features on shapes), with the Procrustes regressor (its matrix cannot scale), and in increments (the regressor also remembers the earlier batch): three refutations with exact numbers. Witnesses: `c100_gauss_newton_refuted`, `c100_increment_refuted`, `c100_procrustes_refuted`.
* C101 (A fit from a bounding box starts with the reference shape placed upright in that box): Exact arithmetic; the alignment is menpo's Procrustes alignment as modelled in Model/SimilarityModel.v. Boxes whose corners are listed in another order turn the shape (c101_corner_order).
* C102 (Fitting a training image from one of its training boxes starts as training did): The exact condition is proved: the starts agree if and only if the shape placed in the box is as large as the ground truth shape. The property itself is refuted, even for the ground truth's own box: training rescales the image by the ground truth shape, fitting by the shape placed in the box. Witnesses: `c102_own_box_refuted`.
* C103 (A call to increment that raises leaves a usable model, and later calls are unaffected): Proved for all histories: the models, the reference shape, whole batches in order, when a call returns, and exactly which models have consumed the failing batch (those of lower scales, and of earlier kinds at the scale of the failure); the models differ by at most one batch per call that raised. The last clause is refuted (c103_retry_refuted). One incremental update of one statistical model (menpo's PCA increment) is taken to be atomic. Witnesses: `c103_retry_refuted`.
* C104 (Renumbering the landmarks renumbers the results and changes nothing else): Proved for the Procrustes alignment, OrthoPDM, whole sessions with constrained local models, supervised descent without shape model (Newton and Gauss-Newton regressors) and with an OrthoPDM (Newton), initial shapes from bounding boxes, and the errors. The features are an oracle that reads the same values around a renumbered shape, in another order; the shape model of the parametric algorithm is an oracle that is built renumbered from renumbered shapes. The algorithms with a parametric appearance model and the Lucas-Kanade algorithms are not covered by this property.
* C105 (Training supervised descent does not depend on where in its image each face is): Proved for algorithms without a shape model (any regressors, silent and verbose) and with an OrthoPDM (silent calls, alignment following shifts, e.g. Procrustes; the shape model is built by an oracle that gives the same model whatever the positions of the annotations). The patch features are an oracle that reads the same values around the moved shapes in the moved image.
* C106 (A picture at another resolution is fitted, and trained on, in the same way): The picture at another resolution is one that menpo rescales to the same image (ideal resampling, no interpolation error and no rounding to whole pixels); the least squares affine alignment is assumed to be linear in its target and rescaling to fix the origin, as menpo's are. For fits from a bounding box see also c101_follows.
* C107 (Double precision does not change iteration budgets or rankings by failure rate): Binary64 rounding from Flocq (axioms of the standard library's real numbers). c107_budget_limit shows that the bound on the budget is needed. What double precision does to the bins themselves is in C19 (c19_double_bins_partial, c19_double_overshoot_refuted).
* C108 (Linear models report the landmarks of the dense shapes they fitted): For parameter vectors of the length of the model's; the alignment of the global transform is an arbitrary function.
* C109 (The filter images of an ensemble are the filters it was trained with): Proved for filters of at least 6 x 6 pixels, in exact arithmetic.  Refuted: filters with two to five rows or columns have empty images (crop with a margin below two, C23); fftshift without axes also rotates the channels, so that with k > 1 channels no channel of a frequency image is shown in its own place; n_sample_offsets raises ValueError for every array of offsets that is not empty (truth value of an array). Witnesses: `c109_frequency_channels_refuted`, `c109_small_filters_refuted`, `c109_n_sample_offsets_refuted`.
* C110 (Correlation filter experts are trained to answer with one peak, at their landmark): Real arithmetic; the density of scipy's multivariate_normal and np.hanning are modelled by their formulas.
* C111 (Figures draw every number where it belongs): Refuted in three places: the abscissae of parametric results run to n_iters plus the number of scales; the maximum of error_range is never an abscissa; arrays of equal lengths are drawn as one curve of height m. Rational arithmetic for the error distribution; the renderer is not modelled. Witnesses: `c111_last_iteration_refuted`, `c111_ced_max_refuted`, `c111_ced_arrays_refuted`.
* C112 (A shape model learns the deformations of its shapes, not where or how they stand): Refuted for batches: every batch is aligned by itself, so that batches turned differently teach the turn as a deformation although increment documents the exact same result, and a last batch with a single shape raises. menpo's GeneralizedProcrustesAnalysis is an assumption, since menpo is not part of /repo; modelled are recursion, stopping at 1e-6 or 100 targets, refusal of a single source. Exact arithmetic in a real closed field. Witnesses: `c112_batches_refuted`, `c112_single_refuted`.
* C113 (Training warns of what may spoil a model, and transforms refuse models they are not made for): Refuted for the triangulation: check_trilist tests whether the transform is an object of PiecewiseAffine, but every caller passes the class, so that the documented warning never comes. The class hierarchy is modelled with single names for menpo's classes; print and the text of the warnings are not. Witnesses: `c113_triangulation_refuted`.
* C114 (Every pretrained fitter has a file and an address of its own): Names with directory separators (several paths for one file) are outside the model, as is the creation of the data directory.
* C115 (The preprocessing of pretrained fitters shows them the surroundings of the shape, unchanged): menpo's crop and as_greyscale are not in /repo: the former is modelled by assumption (outward rounding, clipping at the borders, refusal of empty boxes), of the latter only that it keeps the size is assumed. Exact reals; floating point rounding is outside the model.
* C116 (The noise of an alignment target is in proportion to the object): Refuted for lists: a value per point raises for every target of three points or more, and for two points the values are those of the rows and of the columns; c116_lists says what lists do. Two-dimensional targets, exact reals; the generator's outcomes are arbitrary. Witnesses: `c116_per_point_refuted`, `c116_two_points_refuted`.
* C117 (Every landmark group is drawn with the options written for it, and viewing changes nothing of the caller's): Refuted for the caller's lists: a list of one value is extended in place (arg *= n_objects), so that the same list raises in a later call for another number of groups (c117_kept_refuted); all other lists are kept (c117_kept_partial). Colours (menpo's _check_colours_list), labels and what is drawn are not modelled. Witnesses: `c117_kept_refuted`.
