{"id": "C01", "title": "Per-scale parameters: one value per scale or an error", "statement": "Whatever Python value the user passes for a per-scale option (callables, numeric multi-scale options, max components, sampling, graphs, algorithm classes), the library either raises or ends up with exactly one value per scale; a single value (or one-element list) is repeated for every scale and a full-length list is kept in order.", "quantifier": "every parameter value (scalar, list, tuple, nested, None, wrong type) and every number of scales", "why_tests_cant": "the input space (arbitrary nested Python values times any number of scales) is infinite; unit tests only sample a few shapes", "anchors": ["menpofit/checks.py:check_callable", "menpofit/checks.py:check_multi_scale_param", "menpofit/checks.py:check_max_components", "menpofit/checks.py:check_sampling", "menpofit/checks.py:check_graph", "menpofit/checks.py:check_algorithm_cls"]}
{"id": "C02", "title": "Patch shapes: one patch shape per scale", "statement": "check_patch_shape returns exactly one patch shape per scale or raises; a single patch shape given alone or as a one-element list is repeated for all scales, and a list of n_scales patch shapes is kept in order.", "quantifier": "every patch_shape value and every number of scales", "why_tests_cant": "recursive function over arbitrarily nested values; the failing combination (one-element list with several scales) is one point of an infinite space", "anchors": ["menpofit/checks.py:check_patch_shape"]}
{"id": "C03", "title": "Scales are normalised to the flat list the user meant", "statement": "check_scales accepts exactly the numbers and the non-empty sequences that end with a number and whose other entries are accepted in turn (so every list or tuple of numbers); it returns the non-empty flat list of the numbers written, in order, leaves a flat list of numbers unchanged, and raises ValueError or TypeError for everything else.", "quantifier": "every scales value", "why_tests_cant": "recursion over arbitrarily nested input", "anchors": ["menpofit/checks.py:check_scales"]}
{"id": "C04", "title": "The iteration budget is split over the scales", "statement": "When a single integer max_iters is given, every scale gets the same non-negative number of iterations, the total never differs from max_iters by more than half an iteration per scale, and the total is max_iters itself; a per-scale list is used verbatim; a list of any other length raises.", "quantifier": "every max_iters (int or list) and every number of scales", "why_tests_cant": "rounding behaviour depends on residues of max_iters modulo n_scales for all sizes", "anchors": ["menpofit/checks.py:check_max_iters", "menpofit/fitter.py:MultiScaleNonParametricFitter._fit"]}
{"id": "C05", "title": "Iterative algorithms terminate within max_iters and stop exactly on convergence", "statement": "A run of any iterative fitting algorithm performs at most max_iters parameter updates, stops before max_iters only when the last update moved the shape by at most eps, never performs an update after such a small step, and its list of shapes is exactly the trajectory of the update rule from the initial projection.", "quantifier": "every update rule (image, model), every initial shape, eps and max_iters", "why_tests_cant": "the number of iterations is data dependent and unbounded; a test observes one trajectory", "anchors": ["menpofit/lk/algorithm.py:ForwardAdditive.run", "menpofit/aam/algorithm/lk.py:ProjectOut.run", "menpofit/atm/algorithm.py:Compositional.run", "menpofit/clm/algorithm/gd.py:RegularisedLandmarkMeanShift.run", "menpofit/aps/algorithm/gn.py:Inverse.run", "menpofit/unified_aam_clm/algorithm.py:ProjectOutRegularisedLandmarkMeanShift.run"]}
{"id": "C06", "title": "Shapes, parameters and costs of a run line up", "statement": "After a run with k updates there are k+1 shapes, k+1 shape parameter vectors and, when appearance is optimised, k+1 appearance parameter vectors; the i-th shape is the one generated by the i-th parameter vector; costs are None unless requested and otherwise there is one cost per shape.", "quantifier": "every run length, every algorithm family, costs requested or not", "why_tests_cant": "must hold for every trajectory length and for each of a dozen algorithm loops", "anchors": ["menpofit/lk/algorithm.py", "menpofit/aam/algorithm/lk.py", "menpofit/aam/algorithm/sd.py", "menpofit/atm/algorithm.py", "menpofit/clm/algorithm/gd.py", "menpofit/aps/algorithm/gn.py", "menpofit/unified_aam_clm/algorithm.py"]}
{"id": "C07", "title": "Multi-scale result bookkeeping", "statement": "For a multi-scale parametric result, n_iters is the sum of the iterations actually performed per scale, n_iters_per_scale lists them, shapes holds the initial shape followed by every per-scale shape in order, shape_parameters has one entry per non-initial shape, and the i-th reconstructed initial shape is the first shape of scale i.", "quantifier": "every list of per-scale results (any number of scales, any number of iterations each)", "why_tests_cant": "index arithmetic across an arbitrary number of scales and iterations", "anchors": ["menpofit/result.py:MultiScaleNonParametricIterativeResult", "menpofit/result.py:MultiScaleParametricIterativeResult"]}
{"id": "C08", "title": "Lucas-Kanade result reports the iterations performed", "statement": "The n_iters of the result returned by the Lucas-Kanade fitter equals the number of iterations performed over all scales (the sum of n_iters_per_scale) and is non-negative.", "quantifier": "every Lucas-Kanade fitting run", "why_tests_cant": "the count depends on the trajectory and on the number of scales", "anchors": ["menpofit/lk/result.py:LucasKanadeResult", "menpofit/result.py:MultiScaleParametricIterativeResult"]}
{"id": "C09", "title": "Supervised descent results report the iterations performed", "statement": "After fitting with a trained cascade of r regressors, n_iters is r, the result has r shapes after the initial ones, shape parameters and shapes correspond one to one, and the reconstructed initial shape is the projection of the initial shape on the model.", "quantifier": "every cascade length, parametric or not, every image", "why_tests_cant": "holds for every number of regressors; the parametric and non-parametric loops differ silently", "anchors": ["menpofit/sdm/algorithm/base.py:fit_parametric_shape", "menpofit/sdm/algorithm/base.py:fit_non_parametric_shape", "menpofit/aam/algorithm/sd.py:SupervisedDescent.run"]}
{"id": "C10", "title": "Reported shapes are in the coordinates of the user's image", "statement": "Every shape in a multi-scale result is the shape of the per-scale algorithm mapped by that scale's transforms back to the original image; the reported initial shape is the shape the user passed in, and the final shape is the last shape of the last scale mapped back.", "quantifier": "every image, initial shape, number of scales, features and scales", "why_tests_cant": "coordinate frames compose over an arbitrary number of scales with arbitrary affine maps", "anchors": ["menpofit/result.py:_rescale_shapes_to_reference", "menpofit/fitter.py:MultiScaleNonParametricFitter._prepare_image", "menpofit/fitter.py:MultiScaleNonParametricFitter.fit_from_shape"]}
{"id": "C11", "title": "A scale starts where the previous one ended", "statement": "For consecutive scales, the starting shape handed to the next scale, mapped to the original image, equals the final shape of the previous scale mapped to the original image.", "quantifier": "every pair of consecutive scales, every list of features and scales, every affine transform induced by the features", "why_tests_cant": "depends on the composition order of arbitrary affine transforms; tests with scale-only features cannot see a wrong order", "anchors": ["menpofit/fitter.py:MultiScaleNonParametricFitter._fit", "menpofit/fitter.py:MultiScaleNonParametricFitter._prepare_image"]}
{"id": "C12", "title": "Fitting leaves the user's image untouched", "statement": "After fit_from_shape the landmarks attached to the user's image are exactly those attached before the call, whether the call returns or raises at any point.", "quantifier": "every image landmark state and every point at which a feature, a rescale or an algorithm may raise", "why_tests_cant": "crash points: an exception may occur in any of the calls made for any scale", "anchors": ["menpofit/fitter.py:MultiScaleNonParametricFitter._prepare_image", "menpofit/fitter.py:MultiScaleNonParametricFitter.fit_from_shape"]}
{"id": "C13", "title": "Perturbation generation attaches the advertised boxes", "statement": "generate_perturbations_from_gt attaches to every image n_perturbations boxes per provided box (plus each provided box when a glob is given), numbered consecutively from 0, and the returned callable yields exactly these boxes.", "quantifier": "every image, every set of boxes, every n_perturbations, and images already carrying boxes from an earlier call", "why_tests_cant": "counts and names must hold for all sizes and for histories of calls", "anchors": ["menpofit/fitter.py:generate_perturbations_from_gt"]}
{"id": "C14", "title": "Every perturbed shape is trained on at every scale", "statement": "When training a supervised descent fitter, the shapes used at scale j+1 are the estimates of scale j for every perturbation of every image, and the temporary landmark groups are removed at the end.", "quantifier": "every number of scales, images, perturbations and provided boxes", "why_tests_cant": "depends on the number of provided boxes and perturbations, for any number of scales", "anchors": ["menpofit/sdm/fitter.py:SupervisedDescentFitter._train_batch", "menpofit/dlib/fitter.py:DlibERT._train"]}
{"id": "C15", "title": "Batches partition the training stream", "statement": "For every positive n, batch(iterable, n) yields consecutive non-empty chunks whose concatenation is the input; all chunks but the last have exactly n items and the last has between 1 and n. A negative n raises; n = 0 yields nothing.", "quantifier": "every stream and every batch size", "why_tests_cant": "all stream lengths and batch sizes", "anchors": ["menpofit/base.py:batch"]}
{"id": "C16", "title": "Batched and incremental training keep one model per scale fed with every sample once", "statement": "After construction with any batch size followed by any sequence of increment calls, an AAM/CLM/ATM/APS holds exactly one model of each kind per scale, and the model of each scale has consumed every training sample exactly once, in order, first by building and then by incrementing.", "quantifier": "every number of scales, batch size, training stream and history of increment calls", "why_tests_cant": "property over call histories of arbitrary length", "anchors": ["menpofit/aam/base.py:AAM._train", "menpofit/clm/base.py:CLM._train", "menpofit/atm/base.py:ATM._train", "menpofit/aps/base.py:GenerativeAPS._train"]}
{"id": "C17", "title": "Appearance reconstructions use the right scale's model", "statement": "appearance_reconstructions pairs every appearance parameter vector of a fitting result with the appearance model of the scale it was produced at, in order and exactly once.", "quantifier": "every number of scales and of iterations per scale", "why_tests_cant": "slice arithmetic over an arbitrary number of scales", "anchors": ["menpofit/aam/base.py:AAM.appearance_reconstructions", "menpofit/aam/base.py:PatchAAM.appearance_reconstructions", "menpofit/unified_aam_clm/base.py:UnifiedAAMCLM.appearance_reconstructions"]}
{"id": "C18", "title": "Cumulative error distribution laws", "statement": "compute_cumulative_error returns for each bin the fraction of errors not exceeding it: values in [0,1], monotone in the bin, 1 from the largest error on, 0 below the smallest, and independent of the order of the errors; it raises on an empty error list.", "quantifier": "every list of errors and bins", "why_tests_cant": "order statistics over arbitrary lists", "anchors": ["menpofit/error/stats.py:compute_cumulative_error"]}
{"id": "C19", "title": "Area under curve and failure rate", "statement": "The failure rate is the fraction of errors above max_error, in [0,1]; the AUC lies in [0,1], is 1 when all errors are zero and does not decrease when errors shrink.", "quantifier": "every list of errors, step, minimum and maximum error", "why_tests_cant": "depends on how arange and the integration rule interact with every step/max combination", "anchors": ["menpofit/error/stats.py:area_under_curve_and_failure_rate"]}
{"id": "C20", "title": "Error metrics are metrics", "statement": "For shapes with the same number of points the Euclidean and RMS errors are non-negative, zero exactly for identical shapes, symmetric, invariant to a common translation, scale linearly, and the bounding-box normalised errors are invariant to a common translation and scaling (for length-like normalisers). Shapes with different numbers of points raise, except that a one-point shape is compared with every point of the other.", "quantifier": "every pair of shapes with the same number of points", "why_tests_cant": "real-valued laws over all shapes", "anchors": ["menpofit/error/base.py:euclidean_error", "menpofit/error/base.py:root_mean_square_error", "menpofit/error/base.py:bb_normalised_error"]}
{"id": "C21", "title": "Face landmark conversions commute", "statement": "Converting 68 landmarks to 49 directly equals converting to 51 and then to 49; the conversions keep the order of the remaining points and only drop the jaw and the two inner mouth corners.", "quantifier": "every 68-point shape", "why_tests_cant": "index manipulation over arbitrary point data", "anchors": ["menpofit/error/human/face.py"]}
{"id": "C22", "title": "Inter-ocular normalisers pick the same physical points in every annotation scheme", "statement": "The outer eye corner indices used for 68, 51 and 49 point annotations select the same two physical points of a shape and of its conversions, so the normaliser does not depend on the scheme.", "quantifier": "every 68-point shape", "why_tests_cant": "index arithmetic through conversions", "anchors": ["menpofit/error/human/face.py"]}
{"id": "C23", "title": "Padding then cropping restores the image", "statement": "pad returns an array of the requested size with the original pixels intact inside and zeros outside; crop returns an array of the requested size; crop(pad(x)) = x.", "quantifier": "every image size and every extended size, every pixel content", "why_tests_cant": "parity and zero-margin cases over all sizes", "anchors": ["menpofit/math/fft_utils.py:pad", "menpofit/math/fft_utils.py:crop"]}
{"id": "C24", "title": "Expert responses cover the search window", "statement": "The response map predicted by a correlation filter expert ensemble has exactly the size of the patch (search) shape it is combined with.", "quantifier": "every patch shape", "why_tests_cant": "sizes go through floor(1.5 p - 1), padding and cropping for every p", "anchors": ["menpofit/clm/expert/ensemble.py:ConvolutionBasedExpertEnsemble.padded_size", "menpofit/math/fft_utils.py:fft_convolve2d_sum", "menpofit/clm/algorithm/gd.py"]}
{"id": "C25", "title": "Incremental linear regression equals retraining", "statement": "Training IRLRegression on (X1,Y1) and incrementing it with (X2,Y2) yields the weights obtained by training once on the concatenated data, for any number of increments.", "quantifier": "every data matrix, regularisation alpha, bias flag and number of increments", "why_tests_cant": "matrix identity over all dimensions", "anchors": ["menpofit/math/regression.py:IRLRegression.train", "menpofit/math/regression.py:IRLRegression.increment", "menpofit/math/regression.py:IIRLRegression.increment"]}
{"id": "C26", "title": "Incremental correlation filters equal batch training", "statement": "Training a correlation filter on X1 and incrementing it with X2 (forgetting factor 1) gives the filter of a batch training on all images, whatever the split.", "quantifier": "every list of training images and every split", "why_tests_cant": "algebraic identity over arbitrary data and splits", "anchors": ["menpofit/math/correlationfilter.py:mosse", "menpofit/math/correlationfilter.py:imosse", "menpofit/clm/expert/ensemble.py:CorrelationFilterExpertEnsemble._train"]}
{"id": "C27", "title": "Loading a pretrained fitter recovers from damaged downloads", "statement": "Whatever crash or error interrupted earlier calls of load_fitter, a damaged file makes at most one further call fail before the file is downloaded again, and a fitter that is returned was unpickled from the complete file content present on disk.", "quantifier": "every history of calls, crash points inside the download and unpickling, and process kills", "why_tests_cant": "crash points and histories", "anchors": ["menpofit/io.py:load_fitter", "menpofit/io.py:download_file", "menpofit/io.py:copy_and_yield"]}
{"id": "C28", "title": "Wrapped fitters honour user options and report in original coordinates", "statement": "PickleWrappedFitter passes every user keyword in preference to the stored default, never changes the stored defaults (across any history of calls), and maps the final, initial and intermediate shapes of the preprocessed fit back to the original image.", "quantifier": "every keyword dictionary, history of calls, preprocessing transform and result", "why_tests_cant": "histories and arbitrary dictionaries", "anchors": ["menpofit/io.py:PickleWrappedFitter.fit_from_bb", "menpofit/io.py:PickleWrappedFitter.fit_from_shape"]}
{"id": "C29", "title": "Shape model parameter vectors round trip", "statement": "For a point distribution model with a global transform, as_vector after from_vector returns the same vector, n_parameters is the number of global plus shape weights, and after any sequence of set_target / from_vector / n_active_components operations the reported target is the one generated by the current parameters.", "quantifier": "every model, parameter vector and history of operations", "why_tests_cant": "stateful synchronisation property over histories", "anchors": ["menpofit/modelinstance.py:ModelInstance", "menpofit/modelinstance.py:PDM", "menpofit/modelinstance.py:GlobalPDM", "menpofit/modelinstance.py:OrthoPDM"]}
{"id": "C30", "title": "Transform Jacobians are the derivatives", "statement": "d_dp of affine and similarity transforms at x is the exact derivative of the transformed point with respect to the parameter vector; d_dx is the derivative with respect to the point.", "quantifier": "every parameter vector, point and direction", "why_tests_cant": "derivative identity over the reals/rationals", "anchors": ["menpofit/transform/homogeneous.py:DifferentiableAffine.d_dp", "menpofit/transform/homogeneous.py:DifferentiableSimilarity.d_dp"]}
{"id": "C31", "title": "Piecewise affine warp weights form a partition of unity", "statement": "The piecewise affine Jacobian with respect to the landmarks has, for every point inside a triangle, exactly the barycentric weights on that triangle's vertices, which sum to one and reproduce the point.", "quantifier": "every triangle, point and triangulation", "why_tests_cant": "geometric identity over all inputs", "anchors": ["menpofit/transform/piecewiseaffine.py"]}
{"id": "C32", "title": "Shape model Jacobian obeys the chain rule", "statement": "The derivative of a global point distribution model with respect to its shape weights is the model's components transformed by the linear part of the current global transform.", "quantifier": "every model and every global transform (with rotation)", "why_tests_cant": "an index error in an einsum is invisible for transforms that are pure scalings", "anchors": ["menpofit/modelinstance.py:GlobalPDM.d_dp"]}
{"id": "C33", "title": "A fit does not depend on earlier fits", "statement": "Running the same fitter on the same image and initial shape gives the same result whatever images were fitted before, including with map_inference.", "quantifier": "every history of earlier runs", "why_tests_cant": "history property: state leaking between runs", "anchors": ["menpofit/aam/algorithm/lk.py:LucasKanadeBaseInterface.solve_shape_map", "menpofit/aam/algorithm/lk.py:ProjectOutInverseCompositional", "menpofit/atm/algorithm.py:InverseCompositional"]}
{"id": "C34", "title": "MAP solution of the joint problem does not depend on the number of parameters' representation", "statement": "solve_all_map/solve_shape_map choose the parameter update by comparing the number of parameters with the Hessian size by value; the solution computed is the regularised one for every model size.", "quantifier": "every number of shape and appearance parameters", "why_tests_cant": "identity comparison of integers behaves differently only above 256", "anchors": ["menpofit/aam/algorithm/lk.py:LucasKanadeBaseInterface.solve_all_map", "menpofit/aam/algorithm/lk.py:LucasKanadeBaseInterface.solve_shape_map"]}
{"id": "C35", "title": "Probability maps are probability distributions", "statement": "probability_map turns any response maps into non-negative maps that each sum to one; constant maps become uniform ones.", "quantifier": "every stack of response maps", "why_tests_cant": "must hold for every response including degenerate ones", "anchors": ["menpofit/clm/expert/base.py:probability_map"]}
{"id": "C36", "title": "The search grid is centred and aligned with responses", "statement": "build_grid(shape) has exactly the given shape, contains offset (0,0) at index floor(shape/2), consecutive entries differ by one; the peak index of a response converts to the grid offset of that entry.", "quantifier": "every patch shape", "why_tests_cant": "parity cases over all sizes", "anchors": ["menpofit/base.py:build_grid", "menpofit/clm/algorithm/gd.py:ActiveShapeModel._precompute"]}
{"id": "C37", "title": "Iteration labels of result viewers", "statement": "The labels given to the shapes of an iterative result name the initial shape, the per-scale reconstructions, the final shape and otherwise consecutive iteration numbers starting at 1, and distinct shapes get distinct labels.", "quantifier": "every number of scales and iterations, with or without initial shape", "why_tests_cant": "off-by-one conventions over all counts", "anchors": ["menpofit/result.py:NonParametricIterativeResult.view_iterations", "menpofit/result.py:ParametricIterativeResult.view_iterations", "menpofit/result.py:MultiScaleParametricIterativeResult.view_iterations"]}
{"id": "C38", "title": "Errors and displacements per iteration", "statement": "errors() has one entry per shape with errors()[0] the initial error and errors()[-1] the final error; displacements() has one entry per consecutive pair, is zero exactly when the shape did not move, and is unaffected by a common translation; without ground truth the error accessors raise.", "quantifier": "every result and error function", "why_tests_cant": "all list lengths", "anchors": ["menpofit/result.py:NonParametricIterativeResult.errors", "menpofit/result.py:NonParametricIterativeResult.displacements", "menpofit/result.py:Result"]}
{"id": "C39", "title": "Regression targets stay consistent during cascade training", "statement": "At every iteration of cascade training the regression target of sample (image i, perturbation k) is the ground truth of image i minus its current estimate, with samples in image-major order, and training produces exactly n_iterations regressors.", "quantifier": "every number of images, perturbations, iterations and every regressor", "why_tests_cant": "loop invariant over arbitrarily many iterations with in-place updates", "anchors": ["menpofit/sdm/algorithm/base.py:BaseSupervisedDescentAlgorithm._train", "menpofit/sdm/algorithm/base.py:compute_non_parametric_delta_x", "menpofit/sdm/algorithm/base.py:update_non_parametric_estimates"]}
{"id": "C40", "title": "Active component selection", "statement": "set_models_components gives every scale's model the requested number of components (one value for all or one per scale), changes nothing when None is given, and raises without touching any model for a list of another length.", "quantifier": "every number of models and every request", "why_tests_cant": "all sizes; atomicity on error", "anchors": ["menpofit/checks.py:set_models_components"]}
{"id": "C41", "title": "Project-out removes exactly the appearance subspace", "statement": "Projecting out the appearance basis is idempotent, annihilates the basis and leaves vectors orthogonal to the basis unchanged.", "quantifier": "every basis with full column rank and every vector, all dimensions", "why_tests_cant": "matrix identities over all dimensions", "anchors": ["menpofit/aam/algorithm/lk.py:ProjectOut.project_out", "menpofit/aam/algorithm/sd.py"]}
{"id": "C42", "title": "Gauss-Newton updates solve the normal equations", "statement": "The ML update of the Lucas-Kanade style solvers minimises the linearised squared residual; the MAP update minimises it plus the prior term.", "quantifier": "every Jacobian with full column rank, residual and prior", "why_tests_cant": "optimality over all dimensions and data", "anchors": ["menpofit/aam/algorithm/lk.py:LucasKanadeBaseInterface.solve_shape_ml", "menpofit/lk/residual.py:SSD"]}
{"id": "C43", "title": "Dlib conversions keep coordinates", "statement": "Converting a bounding box to a dlib rectangle and back gives the box with its corners truncated to integers, with the row/column order preserved; integral boxes round trip exactly; full object detections give back the integral points in order.", "quantifier": "every bounding box and shape", "why_tests_cant": "coordinate order and truncation over all integers/rationals", "anchors": ["menpofit/dlib/conversion.py"]}
{"id": "C44", "title": "Sampling masks select the same pixels in every channel", "statement": "The sampled pixel indices are exactly the True pixels of the sampling pattern repeated over all channels, strictly increasing and in range; holistic_sampling_from_step keeps every step-th pixel of the mask.", "quantifier": "every mask, channel count and step", "why_tests_cant": "index arithmetic for all sizes", "anchors": ["menpofit/aam/algorithm/lk.py:LucasKanadeBaseInterface._build_sampling_mask", "menpofit/aam/fitter.py:holistic_sampling_from_step"]}
{"id": "C45", "title": "Dense shapes keep the landmarks first", "statement": "densify_shapes yields shapes whose first points are the original landmarks followed by the warped mask points, so the sparse target of a linear model is exactly the first n_landmarks points of the dense target.", "quantifier": "every shape, reference frame and transform", "why_tests_cant": "list lengths and slices for all sizes", "anchors": ["menpofit/builder.py:densify_shapes", "menpofit/transform/modeldriven.py:LinearOrthoMDTransform"]}
{"id": "C46", "title": "Progress reporting is transparent", "statement": "print_progress yields exactly the items of the wrapped iterable in order, verbose or not.", "quantifier": "every iterable", "why_tests_cant": "all lengths", "anchors": ["menpofit/visualize/textutils.py:print_progress"]}
{"id": "C47", "title": "RBF kernel derivatives", "statement": "The derivative formulas used by the differentiable RBF kernels are the derivatives of the kernels they differentiate, at every point different from the centre, and zero at the centre.", "quantifier": "every point and centre", "why_tests_cant": "analytic identity over the reals", "anchors": ["menpofit/transform/rbf.py"]}
{"id": "C48", "title": "Model-driven transforms can be composed", "statement": "compose_after_from_vector_inplace and the parameter Jacobian of a model-driven transform evaluate without error for every increment.", "quantifier": "every model-driven transform and increment", "why_tests_cant": "tests never exercise the branch; an einsum subscript is invalid for every input", "anchors": ["menpofit/transform/modeldriven.py:ModelDrivenTransform.compose_after_from_vector_inplace", "menpofit/transform/modeldriven.py:ModelDrivenTransform.Jp"]}
{"id": "C49", "title": "User-supplied reference shape is used", "statement": "A model built with an explicit reference shape uses that shape as the reference for all batches; without one, the reference is computed from the first batch only and never changes afterwards.", "quantifier": "every training history, batch size and reference shape", "why_tests_cant": "history property over batches and increments", "anchors": ["menpofit/aam/base.py:AAM._train", "menpofit/clm/base.py:CLM._train", "menpofit/unified_aam_clm/base.py:UnifiedAAMCLM._train", "menpofit/atm/base.py:ATM._train"]}
{"id": "C50", "title": "Reference shape has the requested diagonal", "statement": "compute_reference_shape returns the mean shape scaled by a positive factor so that its bounding box diagonal equals the requested positive diagonal (unchanged when no diagonal is given), provided the mean shape is not a single location.", "quantifier": "every list of shapes and diagonal", "why_tests_cant": "real-valued identity", "anchors": ["menpofit/builder.py:compute_reference_shape"]}
{"id": "C51", "title": "Uniform noise is bounded by the requested percentage", "statement": "With uniform noise the scale, rotation and translation perturbations stay within the requested percentages; zero percentages give the exact alignment; the user's noise list is not changed.", "quantifier": "every random draw and every noise percentage", "why_tests_cant": "property over all outcomes of the random source", "anchors": ["menpofit/fitter.py:noisy_alignment_similarity_transform"]}
{"id": "C52", "title": "Documented option values are accepted, out-of-range ones refused", "statement": "Every documented sampling value (an int step, an array, None, or a list of those) is accepted, component counts outside the documented range (int > 0, float in [0,1]) are refused, and a diagonal is accepted exactly when it is None or at least 20.", "quantifier": "every option value", "why_tests_cant": "ranges over all integers, lists and numbers", "anchors": ["menpofit/checks.py:check_sampling", "menpofit/checks.py:check_max_components", "menpofit/checks.py:check_diagonal"]}
{"id": "C53", "title": "FFT convolution output sizes", "statement": "fft_convolve2d and fft_convolve2d_sum return in mode 'same' an array of the size of the image, whatever the filter size and whether the filter is given in the spatial or frequency domain; an unsupported mode raises ValueError.", "quantifier": "every image and filter size, both filter domains, every mode", "why_tests_cant": "sizes go through halving, padding and cropping for every size and parity", "anchors": ["menpofit/math/fft_utils.py:fft_convolve2d", "menpofit/math/fft_utils.py:fft_convolve2d_sum"]}
{"id": "C54", "title": "With map_inference the prior pulls towards the model mean", "statement": "With map_inference every update of the shape parameters minimises the linearised image error plus the prior penalty of the updated parameters; in particular an update made at zero image error never increases the prior penalty of the shape parameters.", "quantifier": "every Jacobian, positive prior, image error and current parameters; forward and inverse compositional algorithms", "why_tests_cant": "an update in the wrong direction still runs and returns a plausible shape; the statement is an optimality condition over all models and errors", "anchors": ["menpofit/aam/algorithm/lk.py:LucasKanadeBaseInterface.solve_shape_map", "menpofit/aam/algorithm/lk.py:ProjectOutInverseCompositional._update_warp", "menpofit/atm/algorithm.py:InverseCompositional._update_warp"]}
{"id": "C55", "title": "Zero parameters generate the mean shape", "statement": "Setting every parameter of a shape model to zero makes it report the mean of its model, also after the model has been incremented with new shapes.", "quantifier": "every shape model (PDM, GlobalPDM, OrthoPDM), every history of increments", "why_tests_cant": "the mean drifts with every increment; a test with one batch of well aligned shapes sees a difference below its tolerance", "anchors": ["menpofit/modelinstance.py:PDM", "menpofit/modelinstance.py:GlobalPDM._from_vector_inplace", "menpofit/modelinstance.py:OrthoPDM.increment", "menpofit/modelinstance.py:OrthoPDM._update_global_weights"]}
{"id": "C56", "title": "Projecting onto a shape model is idempotent", "statement": "After set_target(shape) a shape model reports the closest shape it can generate; setting that reported shape as the target again changes neither the parameters, nor the global transform, nor the target.", "quantifier": "every orthonormal model, every target shape (PDM and OrthoPDM)", "why_tests_cant": "algebraic identity over all models and shapes; the supervised descent loops re-project at every iteration and rely on it", "anchors": ["menpofit/modelinstance.py:ModelInstance._sync_state_from_target", "menpofit/modelinstance.py:OrthoPDM._update_global_transform"]}
{"id": "C57", "title": "Warp Jacobians obey the chain rule and do not depend on earlier calls", "statement": "d_dp of a model-driven transform at given points is the derivative of the warped points with respect to the shape parameters, and is the same whatever points earlier calls were given, as long as the caller does not change in place an array passed before.", "quantifier": "every shape model, triangulation, set of points and history of calls", "why_tests_cant": "derivative identity over all inputs; the cache is only observable over histories of calls", "anchors": ["menpofit/transform/modeldriven.py:ModelDrivenTransform.d_dp"]}
{"id": "C58", "title": "Thin plate spline Jacobian with respect to the landmarks", "statement": "d_dl of a differentiable thin plate spline is the derivative of every warped point with respect to the target landmarks, for every target, as long as the system of the source landmarks is invertible.", "quantifier": "every kernel, set of source landmarks, target, point and direction", "why_tests_cant": "matrix identity over all inputs; the code differentiates with respect to the source and relies on a cancellation", "anchors": ["menpofit/transform/thinsplatesplines.py:DifferentiableThinPlateSplines.d_dl"]}
{"id": "C59", "title": "Warp derivatives with respect to the point", "statement": "d_dx of piecewise affine and thin plate spline warps is, for any number of points, the derivative of the warped point with respect to the point.", "quantifier": "every warp and every set of points", "why_tests_cant": "tests use warps whose nonlinear part vanishes and as many points as landmarks", "anchors": ["menpofit/transform/piecewiseaffine.py:DifferentiablePiecewiseAffine.d_dx", "menpofit/transform/thinsplatesplines.py:DifferentiableThinPlateSplines.d_dx"]}
{"id": "C60", "title": "Targets of linear model-driven transforms", "statement": "set_target of a linear model-driven transform accepts a dense shape or only its landmarks. Setting an instance of the shape model (any pose, any weights) makes it the target and recovers its pose and weights; setting only the landmarks of an instance, when they determine the weights, recovers the same instance; for other landmarks the landmarks of the new dense target are the closest that the model can give.", "quantifier": "every shape model, every pose and weights, every sparse or dense target, after any increments or changes of the number of active components", "why_tests_cant": "it depends on the algebra of pseudo-inverses and similarity poses, and on which calls happened before", "anchors": ["menpofit/transform/modeldriven.py:LinearOrthoMDTransform", "menpofit/modelinstance.py:OrthoPDM"]}
{"id": "C61", "title": "An image that already matches the template is not moved", "statement": "With any residual (SSD, ECC, GradientImages, GradientCorrelation), if the warped image equals the template and the steepest descent images are linearly independent, one inverse compositional or forward compositional Lucas-Kanade iteration computes a zero increment; forward additive likewise with SSD and ECC.", "quantifier": "all templates, images, warp Jacobians, image gradients, residual classes and algorithms", "why_tests_cant": "tests fit a few images and never start at an exact match; the claim is about all templates and Jacobians, including the degenerate step-size branch of ECC", "anchors": ["menpofit/lk/residual.py: SSD, ECC, GradientImages, GradientCorrelation", "menpofit/lk/algorithm.py: ForwardAdditive.run, ForwardCompositional.run, InverseCompositional.run"]}
{"id": "C62", "title": "Lucas-Kanade fitting is driven by the template", "statement": "Whatever the residual and the algorithm, the increment is zero only if the residual between the warped image and the template is orthogonal to the steepest descent images; the SSD cost is the sum of squared differences and vanishes exactly for identical images. (Refuted for GradientImages and GradientCorrelation with the two forward algorithms, which never look at the template.)", "quantifier": "all images, templates, Jacobians, residual classes and algorithms", "why_tests_cant": "tests only check that a fit runs and returns shapes; independence of the template needs a quantification over all templates", "anchors": ["menpofit/lk/residual.py: GradientImages.steepest_descent_images, GradientCorrelation.steepest_descent_images, steepest_descent_update", "menpofit/lk/algorithm.py: ForwardAdditive.run, ForwardCompositional.run"]}
{"id": "C63", "title": "FourierSSD computes the same increments as SSD", "statement": "For every image size, number of channels and kernel (real, complex, per channel or none), the increment computed by FourierSSD in the frequency domain equals the one computed by SSD, and one raises LinAlgError exactly when the other does; with return_costs=True and a kernel a cost is returned. (The last part is refuted: the cost raises ValueError for nearly all image shapes.)", "quantifier": "all image sizes, kernels, steepest descent images and error images", "why_tests_cant": "a Parseval argument over all sizes and kernels; tests use no kernel", "anchors": ["menpofit/lk/residual.py: SSD, FourierSSD"]}
{"id": "C64", "title": "ECC is a correlation and ignores contrast and brightness", "statement": "The ECC cost is Pearson's correlation coefficient of warped image and template, between -1 and 1, and 1 exactly if they differ by contrast and brightness only; increments and costs do not change when contrast or brightness of image or template change; flat images are refused with ValueError; an increment raises the linearised correlation. (The last part is refuted for both the forward and the inverse algorithms.)", "quantifier": "all images, templates, contrasts a > 0, brightnesses b and Jacobians", "why_tests_cant": "invariance and bounds quantify over all images and all illumination changes", "anchors": ["menpofit/lk/residual.py: ECC"]}
{"id": "C65", "title": "Gradient correlation compares gradient orientations", "statement": "The orientation used is the direction of the image gradient (independent of contrast); the reported cost is the mean cosine of the angle between the gradients of warped image and template, between -1 and 1, and 1 exactly if all orientations agree; the steepest descent images are the derivative of the orientation along the warp. (The last part is refuted: the crossed derivatives are forced to be equal, which they are not.)", "quantifier": "all gradient fields, images, templates and Jacobians", "why_tests_cant": "bounds and equality cases over all gradient fields; derivative correctness over all second derivatives", "anchors": ["menpofit/lk/residual.py: GradientCorrelation"]}
{"id": "C66", "title": "Correlation filters are the regularised least squares filters", "statement": "The filter that mosse (each channel separately) or mccf (channels together) learns is, at every frequency, the only one minimising the squared difference between its responses to the training images and the desired response plus l times its power; after any number of increments it minimises the same quantity with positive weights of total one for the batches.", "quantifier": "every list of training images, desired response, number of channels, regularisation l > 0 and sequence of increments", "why_tests_cant": "optimality over all filters, for all data and histories", "anchors": ["menpofit/math/correlationfilter.py:mosse", "menpofit/math/correlationfilter.py:mccf", "menpofit/math/correlationfilter.py:imccf", "menpofit/clm/expert/ensemble.py:CorrelationFilterExpertEnsemble._train"]}
{"id": "C67", "title": "The landmark mean shift moves each landmark to the centre of mass of its responses", "statement": "Regularised landmark mean shift (CLM and unified AAM-CLM) displaces every landmark to the kernel-weighted centre of mass of its response map: the displacement stays inside the search window, a single response attracts the landmark exactly, scaling the responses changes nothing, and symmetric responses leave the landmark in place.", "quantifier": "every response map, kernel, window size and landmark position", "why_tests_cant": "must hold for every window size, odd and even, and all response values", "anchors": ["menpofit/clm/algorithm/gd.py:RegularisedLandmarkMeanShift.run", "menpofit/unified_aam_clm/algorithm.py:UnifiedAlgorithm._compute_clm_error"]}
{"id": "C68", "title": "A constrained local model update is the best parameter change for the displacements", "statement": "The increment of a CLM iteration is the unique minimiser of the squared distance between the displacements it realises and the ones the experts ask for (plus the shape prior of the updated parameters for maximum a posteriori inference); displacements the shape model can realise are realised, whatever the pose of the face; an underdetermined fit raises.", "quantifier": "every Jacobian, displacement vector, prior, parameter vector and pose", "why_tests_cant": "optimality over all parameter changes, in every pose", "anchors": ["menpofit/clm/algorithm/gd.py:GradientDescentCLMAlgorithm", "menpofit/clm/algorithm/gd.py:ActiveShapeModel.run", "menpofit/clm/algorithm/gd.py:RegularisedLandmarkMeanShift.run"]}
{"id": "C69", "title": "The unified AAM-CLM update minimises the weighted sum of both terms", "statement": "The increment of a unified AAM-CLM iteration minimises a times the appearance term plus (1 - a) times the landmark term (plus the shape prior when requested), and the reported cost is that weighted sum.", "quantifier": "every weight a in [0, 1], Jacobian, error vector, noise variance and prior", "why_tests_cant": "optimality over all parameter changes for every weight", "anchors": ["menpofit/unified_aam_clm/algorithm.py:ProjectOutRegularisedLandmarkMeanShift", "menpofit/unified_aam_clm/algorithm.py:AlternatingRegularisedLandmarkMeanShift"]}
{"id": "C70", "title": "Active pictorial structures jump to the minimum of their quadratic objective", "statement": "Each Gauss-Newton step of an APS fit (inverse or forward) goes to the unique minimum of the appearance error under the appearance precision plus the weighted deformation under the deformation precision; sampling pixels restricts the precision to them; asking for costs reports these two terms for every sampling.", "quantifier": "every precision matrix, Jacobian, error, parameter vector, weight and sampling mask", "why_tests_cant": "optimality over all parameters, for all models and masks", "anchors": ["menpofit/aps/algorithm/gn.py:Inverse", "menpofit/aps/algorithm/gn.py:Forward", "menpofit/aps/algorithm/gn.py:GaussNewtonBaseInterface"]}
{"id": "C71", "title": "The dimension reducing regressors are least squares regressors on the directions they keep", "statement": "Principal component and optimal linear regression trained without a variance give, for every output, the shortest least squares solution (and therefore agree); with a variance they give the best solution among combinations of the kept directions, which carry at least the requested part; orthogonal Procrustes regression gives the orthogonal map that fits the outputs best, and whitening makes the features white.", "quantifier": "every number of samples, features and outputs, every data and every variance, with or without bias", "why_tests_cant": "optimality over all linear maps for all data", "anchors": ["menpofit/math/regression.py:PCRRegression", "menpofit/math/regression.py:OptimalLinearRegression", "menpofit/math/regression.py:OPPRegression"]}
{"id": "C72", "title": "Fitters of one trained model do not disturb each other", "statement": "What a CLM fitter returns for an image and an initial shape does not depend on the fits that this fitter or others of the same trained model made before, nor on the fitters constructed from that model in the meantime; a fitter constructed without a number of components uses all of them; and two fitters constructed with the same options behave the same.", "quantifier": "every trained model, number of scales and interleaved history of constructions and fits, including those that raise", "why_tests_cant": "the shape models are shared mutable state; the effect depends on the whole history", "anchors": ["menpofit/clm/fitter.py:GradientDescentCLMFitter", "menpofit/clm/algorithm/gd.py:GradientDescentCLMAlgorithm", "menpofit/clm/algorithm/gd.py:RegularisedLandmarkMeanShift", "menpofit/checks.py:set_models_components", "menpofit/modelinstance.py:OrthoPDM"]}
{"id": "C73", "title": "The appearance parameters of an AAM fit explain the image at the fitted shape", "statement": "After every iteration of an AAM fit, the reported appearance parameters are the ones whose appearance instance is closest to the image warped with the shape parameters reported for the same iteration, and the reported cost is the remaining squared difference.", "quantifier": "every appearance model of full rank, image, initial shape, number of iterations, forward or inverse composition, with and without map_inference", "why_tests_cant": "a test sees one image and cannot tell a slightly wrong least squares solution from the noise of the fit; the claim compares every iteration of every fit with an optimum", "anchors": ["menpofit/aam/algorithm/lk.py:Simultaneous.run", "menpofit/aam/algorithm/lk.py:Alternating.run", "menpofit/aam/algorithm/lk.py:ModifiedAlternating.run", "menpofit/aam/algorithm/lk.py:Wiberg.run", "menpofit/aam/algorithm/lk.py:ProjectOut.run"]}
{"id": "C74", "title": "Forward algorithms that eliminate the appearance agree", "statement": "The project-out and Wiberg forward compositional algorithms return the same shapes, shape parameters and costs for every fit, and the simultaneous forward compositional algorithm without map_inference returns the same shapes and shape parameters at costs that are never smaller; they raise the same exceptions.", "quantifier": "every appearance model of full rank, image, initial shape, options and number of iterations", "why_tests_cant": "equality of whole iterate sequences for all images cannot be sampled", "anchors": ["menpofit/aam/algorithm/lk.py:ProjectOutForwardCompositional", "menpofit/aam/algorithm/lk.py:WibergForwardCompositional", "menpofit/aam/algorithm/lk.py:SimultaneousForwardCompositional"]}
{"id": "C75", "title": "With map_inference a singular system never stops an AAM fit", "statement": "With map_inference and models with positive eigenvalues and noise variance, every AAM Lucas-Kanade algorithm returns a result unless warping the image or computing its gradient fails, however degenerate the image gradients are.", "quantifier": "every model, image, initial shape and number of iterations", "why_tests_cant": "singularity of a system is a measure zero event that random tests never meet", "anchors": ["menpofit/aam/algorithm/lk.py:Alternating.run", "menpofit/aam/algorithm/lk.py:LucasKanade._precompute", "menpofit/aam/algorithm/lk.py:LucasKanadeBaseInterface.solve_shape_map"]}
{"id": "C76", "title": "Training a supervised descent algorithm again is training a new one", "statement": "Calling train on a supervised descent algorithm that was trained or incrementally trained before gives the regressors and estimates that a newly constructed algorithm would get from the same images and shapes.", "quantifier": "every algorithm family, every history of earlier train and increment calls, all images, shapes and perturbations", "why_tests_cant": "depends on the whole history of the object; a test trains each object once", "anchors": ["menpofit/sdm/algorithm/base.py:BaseSupervisedDescentAlgorithm._train", "menpofit/sdm/algorithm/parametricshape.py:ParametricShapeSDAlgorithm._compute_delta_x", "menpofit/sdm/algorithm/parametricappearance.py:ParametricAppearanceSDAlgorithm._compute_training_features", "menpofit/sdm/algorithm/fullyparametric.py:FullyParametricSDAlgorithm"]}
{"id": "C77", "title": "Fitting a training image from a training perturbation retraces the training", "statement": "After training a supervised descent algorithm, running it on training image i from its l-th training perturbation reports exactly the estimates that training had of that sample after each of its iterations, so the training error is the error of a fit.", "quantifier": "every algorithm family, regressor, image set, perturbation set, number of iterations, verbose or not, training or incremental training, every state earlier fits left the shape model in", "why_tests_cant": "an equality of two loops for every sample and every state of the shape model", "anchors": ["menpofit/sdm/algorithm/base.py:fit_parametric_shape", "menpofit/sdm/algorithm/base.py:fit_non_parametric_shape", "menpofit/sdm/algorithm/base.py:update_parametric_estimates", "menpofit/sdm/algorithm/base.py:features_per_image"]}
{"id": "C78", "title": "Verbose training trains the same", "statement": "Training a supervised descent algorithm with verbose=True gives the same regressors, estimates and models as with verbose=False, although computing the printed errors moves the shape model.", "quantifier": "every algorithm family, data set and history", "why_tests_cant": "tests train silently; the printing code shares the mutable shape model with training", "anchors": ["menpofit/sdm/algorithm/base.py:print_parametric_info", "menpofit/sdm/algorithm/base.py:print_non_parametric_info", "menpofit/sdm/algorithm/base.py:BaseSupervisedDescentAlgorithm._train"]}
{"id": "C79", "title": "FFT convolution computes the linear convolution", "statement": "fft_convolve2d(x, f) in mode 'same' computes the zero padded linear convolution of the image x with the filter f, centred at the middle of the filter, at every pixel.", "quantifier": "every image, every filter, all sizes and parities", "why_tests_cant": "the wrap around and off by one errors of FFT convolution depend on the sizes, on their parities and on the pixels near the border; tests take one size", "anchors": ["menpofit/math/fft_utils.py:fft_convolve2d", "menpofit/math/fft_utils.py:pad", "menpofit/math/fft_utils.py:crop"]}
{"id": "C80", "title": "Expert responses are aligned with the filter that was trained", "statement": "The response of a correlation filter expert at a pixel is the sum over the channels of the convolutions of the patch with the trained filters, the origin of the filter (the place where training put the desired peak) at that pixel, so that the peak of the response is at the landmark.", "quantifier": "every trained filter, patch, number of channels, patch shape and context shape", "why_tests_cant": "a misalignment by one pixel appears only for some parities of the two shapes and biases every fit by one pixel without failing", "anchors": ["menpofit/clm/expert/ensemble.py:CorrelationFilterExpertEnsemble", "menpofit/math/correlationfilter.py:mccf", "menpofit/math/fft_utils.py:fft_convolve2d_sum"]}
{"id": "C81", "title": "Supervised descent AAM fits from training perturbations retrace the training", "statement": "After a supervised descent AAM algorithm was trained (from scratch or incrementally, verbose or not), fitting a training image from one of the perturbed shapes it was trained on reports, after the shape the model settles on, exactly the estimates training had of that sample after each iteration, whether or not the perturbed shape is one the shape model can generate. Training again from scratch gives what a new algorithm gets, and verbose training trains the same.", "quantifier": "all training sets, perturbations, numbers of iterations, images, regressors that predict row by row, features computed from the warped image, states the transform was left in; for the model-driven transform over an orthonormal shape model unless an intermediate estimate has all its points in one place", "why_tests_cant": "the transform is one shared mutable object that feature extraction, printing and estimate updates all move; that no order of these calls leaks into the result has to be shown for every training set and history", "anchors": ["menpofit/aam/algorithm/sd.py:ParametricSupervisedDescentAlgorithm", "menpofit/sdm/algorithm/base.py:BaseSupervisedDescentAlgorithm._train", "menpofit/sdm/algorithm/base.py:update_parametric_estimates", "menpofit/transform/modeldriven.py:ModelDrivenTransform"]}
{"id": "C82", "title": "Project-out fits do not see the appearance the model explains", "statement": "Two images whose warps differ, for every warp, by a combination of the active appearance components get the same fit from an algorithm that projects the appearance out: the same shapes, parameters, costs and exceptions, with and without the shape prior; training project-out supervised descent on either gives the same regressors. Supervised descent on appearance weights sees only what the model explains.", "quantifier": "all images, appearance models with a pseudo-inverse, initial shapes, numbers of iterations, options, warps and regressors", "why_tests_cant": "a statement about all pairs of images and all combinations of components over whole runs", "anchors": ["menpofit/aam/algorithm/lk.py:ProjectOut", "menpofit/aam/algorithm/lk.py:ProjectOutInverseCompositional", "menpofit/aam/algorithm/lk.py:ProjectOutForwardCompositional", "menpofit/aam/algorithm/sd.py:ProjectOut", "menpofit/aam/algorithm/sd.py:AppearanceWeights"]}
{"id": "C83", "title": "Shape models follow the shape they are given", "statement": "Setting a moved, turned and scaled copy of a target on a shape model with a global similarity reports the copy, moved, turned and scaled in the same way, of the shape it reported for the target, with the same shape weights. A moved, turned and scaled copy of the mean is reproduced exactly with zero shape weights. The parameters of the similarity model of a shape are exactly its similarity transforms.", "quantifier": "all shapes, shape models, states of the model, similarity transforms of nonzero scale and targets that can be set", "why_tests_cant": "a statement about all targets and all similarity transforms at once, over exact arithmetic", "anchors": ["menpofit/modelinstance.py:similarity_2d_instance_model", "menpofit/modelinstance.py:GlobalSimilarityModel", "menpofit/modelinstance.py:GlobalPDM", "menpofit/modelinstance.py:OrthoPDM", "menpofit/transform/homogeneous.py:DifferentiableAlignmentSimilarity"]}
{"id": "C84", "title": "Moving the image and the initial shape moves the fit by the same amount", "statement": "Fitting an image that looks around every shifted shape as another image looks around the shape itself, from the shifted initial shape, gives at every iteration of every scale the shifted shape with the same shape weights, or the same exception, whatever has been fitted before with the same model. This holds for gradient descent constrained local models and for supervised descent fitters with and without a shape model.", "quantifier": "all pairs of images, shifts per scale, initial shapes, trained shape models in any state, regressors, numbers of iterations and options", "why_tests_cant": "a relation between two whole runs for every image, shift and history", "anchors": ["menpofit/clm/algorithm/gd.py:ActiveShapeModel", "menpofit/clm/algorithm/gd.py:RegularisedLandmarkMeanShift", "menpofit/sdm/algorithm/base.py:fit_parametric_shape", "menpofit/sdm/algorithm/base.py:fit_non_parametric_shape", "menpofit/modelinstance.py:OrthoPDM", "menpofit/fitter.py:MultiScaleNonParametricFitter._fit"]}
{"id": "C85", "title": "A smaller iteration budget or a looser tolerance cuts the same run short", "statement": "Running an algorithm with fewer iterations allowed or with a looser convergence tolerance, and with or without asking for costs, reports a prefix of the parameters, shapes, appearance parameters and costs of the longer run; the longer run raises whenever the shorter one does, with the same exception. Over all scales, a larger budget for the last scale leaves every earlier scale as it was.", "quantifier": "all images, initial shapes, budgets, tolerances, cost options and step functions of the algorithms, including steps that raise", "why_tests_cant": "a relation between every pair of runs with different budgets", "anchors": ["menpofit/lk/algorithm.py:ForwardAdditive.run", "menpofit/aam/algorithm/lk.py:ProjectOut.run", "menpofit/aam/algorithm/lk.py:Simultaneous.run", "menpofit/aps/algorithm/gn.py:Inverse.run", "menpofit/clm/algorithm/gd.py:GradientDescentCLMAlgorithm", "menpofit/fitter.py:MultiScaleNonParametricFitter._fit"]}
{"id": "C86", "title": "A fit can be continued from its final shape", "statement": "If a fit used up its iterations without converging, fitting the same image again from its final shape continues it: the two fits together report what one fit with the sum of the iterations reports, and raise when it raises, leaving the algorithm in the same state.", "quantifier": "all images, initial shapes, splits of the iteration budget, options and states of the algorithm, for transforms that give the parameters of their own shapes back", "why_tests_cant": "relates every pair of consecutive runs to a third one for every split of the budget", "anchors": ["menpofit/aam/algorithm/lk.py:ProjectOut.run", "menpofit/aam/algorithm/lk.py:Simultaneous.run", "menpofit/aam/algorithm/lk.py:Alternating.run", "menpofit/aam/algorithm/lk.py:ModifiedAlternating.run", "menpofit/aam/algorithm/lk.py:Wiberg.run", "menpofit/atm/algorithm.py:Compositional.run", "menpofit/clm/algorithm/gd.py:ActiveShapeModel.run", "menpofit/clm/algorithm/gd.py:RegularisedLandmarkMeanShift.run"]}
{"id": "C87", "title": "Instances are the mean plus the weighted components, and every instance can be drawn at random", "statement": "Calling instance() on a trained AAM, ATM, APS or unified AAM-CLM (shape_instance() on a CLM) without weights yields the mean shape and the mean appearance of the scale named; giving weights yields the mean plus that many standard deviations along each component, missing weights counting as zero and too many raising ValueError. Negative scale indices count from the end and the default names the last scale. random_instance() returns a member of the models and every member can come up.", "quantifier": "every trained model of every class with any number of scales and components, every scale index, every list of weights, every outcome of the random number generator", "why_tests_cant": "a test draws a few instances of a few models; that every member can be drawn, for any numbers of components, ranges over all outcomes of the generator", "anchors": ["menpofit/aam/base.py:AAM.instance", "menpofit/aam/base.py:AAM.random_instance", "menpofit/aam/base.py:MaskedAAM._instance", "menpofit/atm/base.py:ATM.instance", "menpofit/atm/base.py:ATM.random_instance", "menpofit/atm/base.py:MaskedATM._instance", "menpofit/aps/base.py:GenerativeAPS.instance", "menpofit/aps/base.py:GenerativeAPS.random_instance", "menpofit/unified_aam_clm/base.py:UnifiedAAMCLM.instance", "menpofit/clm/base.py:CLM.shape_instance"]}
{"id": "C88", "title": "A model is fitted to images prepared as those it was trained on", "statement": "At every scale, fitting a training image from its annotated shape presents the algorithm of that scale with the same pixels and the same shape as the image the models of that scale were trained on: the same rescaling to the reference shape, the same features and the same rescaling to the scale.", "quantifier": "every set of training images with any landmarks, every reference shape, every list of features and of scales, every feature, resampling and rescaling that moves all landmarks along, for every deformable model class (AAM, CLM, APS, unified, SDM, dlib, ATM template)", "why_tests_cant": "Training and fitting prepare images in separately written loops that compare features by identity or by equality, skip features at the first scale, and test scales exactly or with a tolerance; whether they agree depends on every combination of features and scales, which tests sample for a handful of configurations.", "anchors": ["menpofit/builder.py:rescale_images_to_reference_shape", "menpofit/builder.py:compute_features", "menpofit/builder.py:scale_images", "menpofit/fitter.py:MultiScaleNonParametricFitter._prepare_image", "menpofit/aam/base.py:AAM._train_batch", "menpofit/clm/base.py:CLM._train_batch", "menpofit/aps/base.py:GenerativeAPS._train_batch", "menpofit/atm/base.py:ATM._train_batch", "menpofit/sdm/fitter.py:SupervisedDescentFitter._train_batch", "menpofit/dlib/fitter.py:DlibERT._train", "menpofit/unified_aam_clm/base.py:UnifiedAAMCLM._train"]}
{"id": "C89", "title": "The default deformation tree links the landmarks whose relative positions vary least", "statement": "When no deformation graph is given, an active pictorial structure uses a spanning tree of the landmarks that has the least product of generalised variances (determinants of the covariance) of the relative positions over its edges, over the training images. The tree depends neither on the order of the images, nor on where each face lies in its image, nor on the common units of the annotations; graphs that are given are kept.", "quantifier": "every number of images and landmarks, every annotation, every permutation, every translation per image and common invertible linear map, every sequence of batches", "why_tests_cant": "The tree is the result of minus log likelihoods summed over all images and of a minimum over all spanning trees, of which there are n^(n-2); only an algebraic argument shows that the likelihoods reduce to the determinants and that adding constants does not change the minimiser, and which annotations make it fail.", "anchors": ["menpofit/aps/base.py:_compute_minimum_spanning_tree", "menpofit/aps/base.py:GenerativeAPS._train_batch"]}
{"id": "C90", "title": "Error summaries are order-free, equivariant and robust", "statement": "The statistics of a list of errors (mean, standard deviation, median, median absolute deviation, maximum, area under the curve, failure rate) do not depend on the order of the images; in other units they change by exactly the unit; at least half of the errors lie on either side of the median and within one median absolute deviation of it; as long as more than half of the errors lie within bounds so does the median and the median absolute deviation is at most their width, whatever the outliers; mean and median differ by at most the standard deviation. The statistics of several methods are the columns of what each method gets alone. displacements_stats gives one number per iteration, between the least and the largest displacement, for the documented statistics and raises for others.", "quantifier": "every non-empty list of real errors, every permutation, every affine change of units, every number of methods, every value of the outliers", "why_tests_cant": "Robustness and order-independence are statements about all lists and all outliers; tests compare a few literal lists.", "anchors": ["menpofit/error/stats.py:mad", "menpofit/error/stats.py:compute_statistical_measures", "menpofit/error/stats.py:area_under_curve_and_failure_rate", "menpofit/result.py:NonParametricIterativeResult.displacements_stats"]}
{"id": "C91", "title": "A Lucas-Kanade fitter stays on its own template", "statement": "What a Lucas-Kanade fitter compares with its templates, when it is given its own template image and that image's landmarks, are the templates themselves at every scale; so such a fit reports the given landmarks as every shape and as the final one, for every set of scales, diagonal, features, residual and number of iterations.", "quantifier": "every template, landmark shape whose points are not all on a line, set of scales, diagonal, features, iteration budget and other arguments", "why_tests_cant": "The claim composes the preparation of the template at construction, the preparation of the image at fitting, the loop of every scale and the passing of shapes between scales, for any number of scales and iterations; a run on one template with one configuration exercises one path (and the default configuration does not show the case that fails).", "anchors": ["menpofit/lk/fitter.py:LucasKanadeFitter.__init__", "menpofit/lk/fitter.py:LucasKanadeFitter._prepare_template", "menpofit/lk/algorithm.py:InverseCompositional.run", "menpofit/fitter.py:MultiScaleNonParametricFitter._prepare_image", "menpofit/fitter.py:MultiScaleNonParametricFitter._fit"]}
{"id": "C92", "title": "A fit that starts where the model explains the image stays there", "statement": "If the image warped with the initial shape is exactly an instance of the appearance model (the template, for active template models), every AAM and ATM algorithm reports the initial shape and parameters at every iteration, with the appearance parameters of that instance and costs of zero, and makes at most one iteration when it tests convergence. In particular a training image fitted from its annotation, with models that keep all components, stays at its annotation on all scales.", "quantifier": "all appearance models with a pseudo-inverse, images, warps, Jacobians, initial shapes, iteration budgets and options; all training sets, scales and features of one kind for the multi-scale statement", "why_tests_cant": "A fixed-point statement over all models, images and algorithms, composed with the preparation of images in training and in fitting; tests start from perturbed shapes and compare with recorded numbers, where a bias of the increment is invisible.", "anchors": ["menpofit/aam/algorithm/lk.py:ProjectOut.run", "menpofit/aam/algorithm/lk.py:Simultaneous.run", "menpofit/aam/algorithm/lk.py:Alternating.run", "menpofit/aam/algorithm/lk.py:ModifiedAlternating.run", "menpofit/aam/algorithm/lk.py:Wiberg.run", "menpofit/atm/algorithm.py:Compositional.run", "menpofit/fitter.py:MultiScaleNonParametricFitter._fit"]}
{"id": "C93", "title": "Training does not depend on the order of the training images", "statement": "Trained without a batch size on the same images in another order, a model gets the same reference shape and the same samples for each of its statistical models; correlation filters, regressors and the weights behind the default deformation tree are the same; and a supervised descent cascade learns the same regressors and brings the initial shapes of every image to the same place (or fails with the same exception). With a batch size the order matters: the reference shape is that of the first batch.", "quantifier": "all training sets, permutations, numbers of scales, iterations and samples; all features, filters and regressors that work sample by sample; an equal number of initial shapes per image for cascades", "why_tests_cant": "A symmetry over all permutations of all data sets through loops that carry row indices, running sums and growing lists; a test fixes one order, and a row mismatch in one order is not visible as such.", "anchors": ["menpofit/builder.py:compute_reference_shape", "menpofit/aam/base.py:AAM._train", "menpofit/sdm/algorithm/base.py:BaseSupervisedDescentAlgorithm._train", "menpofit/math/regression.py:IRLRegression.train", "menpofit/math/correlationfilter.py:mccf", "menpofit/aps/base.py:_compute_minimum_spanning_tree"]}
{"id": "C94", "title": "A table of statistics shows each method's own numbers, best method first", "statement": "statistics_table returns one row per method: the method's name and the statistics asked for, each computed from that method's errors alone, in the columns asked for. Without sort_by the rows are in the order of the methods; with it they are the same rows, best method first by that statistic (ascending errors and failure rates, descending area under the curve). The call succeeds exactly when each method can be summarised, every statistic asked for is supported and has a name, there is one method name per method, and sort_by is among the statistics shown.", "quantifier": "all lists of methods' errors, method names, lists of statistics, column names and sort keys", "why_tests_cant": "the row-to-method correspondence after sorting has to hold for every number of methods and every order of their statistics, ties included", "anchors": ["menpofit/visualize/textutils.py:statistics_table"]}
{"id": "C95", "title": "A model sees of an image at a shape in fitting what it saw in training", "statement": "Training hands the appearance model, image by image, the values of the image at its own shape (on the reference frame, or as normalised patches), whatever images came before and however they are batched. In fitting, whatever was done to the model's shape before, the image is sampled at the current shape in the same way, on the same frame. So a training image at its annotated shape, where the shape model reproduces that shape, gives the training sample again (and the template of a template model gives itself again) at every scale; warped_images shows, shape by shape, what the fit saw.", "quantifier": "all training sets and batches, frames, warps, sampling and patch functions, shape models, histories of set_target and parameter updates, images and shapes", "why_tests_cant": "the parity has to hold for every history of a shared, mutated transform, and for every frame and warp", "anchors": ["menpofit/builder.py:warp_images", "menpofit/builder.py:extract_patches", "menpofit/aam/base.py:AAM.build_fitter_interfaces", "menpofit/aam/algorithm/lk.py:LucasKanadeBaseInterface.warp", "menpofit/aam/algorithm/lk.py:LucasKanadePatchBaseInterface.warp", "menpofit/aps/algorithm/gn.py:GaussNewtonBaseInterface.warp", "menpofit/atm/base.py:ATM.build_fitter_interfaces", "menpofit/transform/modeldriven.py:LinearOrthoMDTransform._apply"]}
{"id": "C96", "title": "Constructors store one valid value per scale for every option", "statement": "Whatever options a model or fitter constructor accepts, the built object has the scales that were given and, for each documented per-scale option, one valid value per scale: a single value is used at every scale, a list gives the values of the scales in order; every documented combination of values is accepted, including a single number for the scales.", "quantifier": "every constructor of the library and every combination of option values", "why_tests_cant": "sixteen constructors times all combinations of scalar, one-element, per-scale and malformed option values, for any number of scales", "anchors": ["menpofit/aam/base.py:AAM.__init__", "menpofit/aam/base.py:MaskedAAM.__init__", "menpofit/aam/base.py:PatchAAM.__init__", "menpofit/atm/base.py:ATM.__init__", "menpofit/atm/base.py:MaskedATM.__init__", "menpofit/clm/base.py:CLM.__init__", "menpofit/aps/base.py:GenerativeAPS.__init__", "menpofit/unified_aam_clm/base.py:UnifiedAAMCLM.__init__", "menpofit/sdm/fitter.py:SupervisedDescentFitter.__init__", "menpofit/dlib/fitter.py:DlibERT.__init__", "menpofit/lk/fitter.py:LucasKanadeFitter.__init__"]}
{"id": "C97", "title": "Training leaves the user's images untouched", "statement": "The image objects given to a constructor or to increment are afterwards exactly as they were, pixels and landmark groups alike, whether training returns or raises an exception at whatever point.", "quantifier": "every list of images (also with the same object several times), every landmark dictionary, every number of scales, batches and features, and every point at which any call of training raises", "why_tests_cant": "training writes temporary groups on image objects that may be shared with the caller; whether they can leak depends on the features, the scales and the point of failure, so every sequence of calls must be considered", "anchors": ["menpofit/sdm/fitter.py:SupervisedDescentFitter._train", "menpofit/dlib/fitter.py:DlibERT._train", "menpofit/aam/base.py:AAM._train", "menpofit/clm/base.py:CLM._train", "menpofit/aps/base.py:GenerativeAPS._train", "menpofit/unified_aam_clm/base.py:UnifiedAAMCLM._train", "menpofit/atm/base.py:ATM._train", "menpofit/builder.py:rescale_images_to_reference_shape", "menpofit/fitter.py:generate_perturbations_from_gt"]}
{"id": "C98", "title": "Each expert of a CLM is trained at and applied at its own landmark", "statement": "An ensemble has one expert per landmark. Expert k learns from the patches at the k-th landmark of every training image and from nothing else, also in increments, and its response is computed at the k-th landmark of the shape that is fitted; shapes with too few points are refused; the response it is trained to give is greatest exactly at the pixel of the landmark.", "quantifier": "every list of training images and shapes, every number of landmarks, every filter class, normalisation, offsets and patch shape, every increment and every fitted shape", "why_tests_cant": "independence of an expert from all other landmarks is a statement about pairs of training sets; tests see a few of them", "anchors": ["menpofit/clm/expert/ensemble.py:CorrelationFilterExpertEnsemble._train", "menpofit/clm/expert/ensemble.py:CorrelationFilterExpertEnsemble._extract_patch", "menpofit/clm/expert/ensemble.py:ConvolutionBasedExpertEnsemble.predict_response", "menpofit/clm/expert/ensemble.py:ConvolutionBasedExpertEnsemble.increment", "menpofit/clm/expert/ensemble.py:generate_gaussian_response"]}
{"id": "C99", "title": "With the default patch normalisation the experts ignore brightness and contrast", "statement": "Changing the brightness and the (positive) contrast of the training images, of each image and each channel in its own way, gives the same experts, and changing them in the image that is fitted gives the same responses; a window is normalised in fitting as it was in training.", "quantifier": "every image, every brightness and positive contrast per channel, every shape, offsets, patch and context shape; windows that lie inside the image", "why_tests_cant": "all gains and offsets and all pixel values; the discrepancy between training and fitting needs more than one channel", "anchors": ["menpofit/clm/expert/ensemble.py:channel_normalize_norm", "menpofit/clm/expert/ensemble.py:ConvolutionBasedExpertEnsemble._extract_patches", "menpofit/clm/expert/ensemble.py:CorrelationFilterExpertEnsemble._extract_patch"]}
{"id": "C100", "title": "A trained cascade never moves its own training shapes further from the annotations", "statement": "At every level of the cascade of a supervised descent algorithm, the total squared distance between the annotations and the current shapes (over all training images and all their perturbations) does not increase, and it decreases unless the shapes are not moved at all; so fitting every training image from each of its training perturbations ends, in total, no further from the annotations than it began.", "quantifier": "every training set, every number of perturbations and of cascade levels, every regularisation alpha >= 0, with and without bias, every feature function, batches after the first, the ridge, principal component and optimal linear regressors; shapes regressed freely or as parameters of an OrthoPDM", "why_tests_cant": "an inequality over all training sets and all features; the counterexamples for the other regressors need particular data", "anchors": ["menpofit/sdm/algorithm/base.py:BaseSupervisedDescentAlgorithm._train", "menpofit/sdm/algorithm/base.py:BaseSupervisedDescentAlgorithm.run", "menpofit/sdm/algorithm/nonparametric.py:NonParametricNewton", "menpofit/sdm/algorithm/nonparametric.py:NonParametricGaussNewton", "menpofit/sdm/algorithm/nonparametric.py:NonParametricPCRRegression", "menpofit/sdm/algorithm/nonparametric.py:NonParametricOptimalRegression", "menpofit/sdm/algorithm/nonparametric.py:NonParametricOPPRegression", "menpofit/math/regression.py:IRLRegression"]}
{"id": "C101", "title": "A fit from a bounding box starts with the reference shape placed upright in that box", "statement": "fit_from_bb starts from the reference shape, moved and scaled by one positive factor, never turned or mirrored. The box around it has the middle and the diagonal of the given box, and is the given box exactly when the aspect ratios agree. It moves and scales with the box. At the lowest scale the shape always has the size of the reference shape at that scale, whatever the box.", "quantifier": "every reference shape with a proper bounding box and any number of landmarks, every axis-aligned box with its corners in menpo's order, every scale", "why_tests_cant": "an equation over all reference shapes and all boxes, in which the optimal rotation is that of a least squares problem", "anchors": ["menpofit/fitter.py:align_shape_with_bounding_box", "menpofit/fitter.py:MultiScaleNonParametricFitter.fit_from_bb", "menpofit/fitter.py:MultiScaleNonParametricFitter._prepare_image"]}
{"id": "C102", "title": "Fitting a training image from one of its training boxes starts as training did", "statement": "When a supervised descent fitter was trained on an image with a given bounding box, a fit of the same image from the same box starts at the lowest scale with the image in the same size and the same shape as training did.", "quantifier": "every reference shape, ground truth shape, bounding box and scale", "why_tests_cant": "agreement of two different code paths on all shapes and boxes", "anchors": ["menpofit/sdm/fitter.py:SupervisedDescentFitter._train_batch", "menpofit/fitter.py:MultiScaleNonParametricFitter.fit_from_bb", "menpofit/fitter.py:MultiScaleNonParametricFitter._prepare_image"]}
{"id": "C103", "title": "A call to increment that raises leaves a usable model, and later calls are unaffected", "statement": "increment either returns, exactly when the training data of all its batches can be computed, or raises the exception met there. Whatever calls raise, wherever in them, and even if the caller carries on: there is still one model of each kind per scale, the reference shape is unchanged, every model has consumed whole batches in order, and nothing of a failed call is counted by some models and not by others.", "quantifier": "every history of increment calls with any batch sizes, every batch, scale and kind of model at which computing the data raises", "why_tests_cant": "every crash point of every history of calls", "anchors": ["menpofit/aam/base.py:AAM._train", "menpofit/aam/base.py:AAM._train_batch", "menpofit/aam/base.py:AAM.increment", "menpofit/clm/base.py:CLM._train_batch", "menpofit/aps/base.py:GenerativeAPS._train_batch"]}
{"id": "C104", "title": "Renumbering the landmarks renumbers the results and changes nothing else", "statement": "The numbering of the landmarks is a convention. If every shape handed to the library (the trained shape models, annotations, initial shapes) is renumbered in the same way, and the experts or patch features are renumbered along, then fitting and training give the same parameters, the same exceptions and the renumbered shapes, and the errors reported for the result are unchanged.", "quantifier": "every permutation of the landmarks, every number of landmarks, every history of trainings, increments, fitter constructions and fits, every image", "why_tests_cant": "all permutations, all histories and all images at once", "anchors": ["menpofit/modelinstance.py:OrthoPDM", "menpofit/clm/algorithm/gd.py:RegularisedLandmarkMeanShift", "menpofit/clm/fitter.py:GradientDescentCLMFitter", "menpofit/sdm/algorithm/base.py:BaseSupervisedDescentAlgorithm", "menpofit/math/regression.py:IRLRegression", "menpofit/math/regression.py:IIRLRegression", "menpofit/fitter.py:align_shape_with_bounding_box", "menpofit/error/base.py:euclidean_error"]}
{"id": "C105", "title": "Training supervised descent does not depend on where in its image each face is", "statement": "If every training image is replaced by one that shows the same thing somewhere else (each image moved by its own amount), and its annotation and its perturbed starting shapes are moved along, then training gives exactly the same regressors and appearance model (or the same exception), the estimates kept along the cascade are the old ones moved by the amount of their image, and later fits with the trained algorithm are equal. This holds for whole histories of trainings and increments.", "quantifier": "every set of images and starting shapes, every amount of movement per image, every regression method, every number of cascade levels, every history of trainings and increments", "why_tests_cant": "all displacements of all images in all histories, for every regressor", "anchors": ["menpofit/sdm/algorithm/base.py:BaseSupervisedDescentAlgorithm", "menpofit/sdm/algorithm/nonparametric.py", "menpofit/sdm/algorithm/parametricshape.py", "menpofit/sdm/algorithm/parametricappearance.py", "menpofit/sdm/algorithm/fullyparametric.py", "menpofit/modelinstance.py:OrthoPDM"]}
{"id": "C106", "title": "A picture at another resolution is fitted, and trained on, in the same way", "statement": "Fitters bring every image to the size of the reference shape first. So if an image is replaced by the same picture at another resolution, and the initial shape and the ground truth are scaled along, every fit (any algorithm, any features and scales) gives the same parameters, costs, numbers of iterations and exceptions, and the same shapes scaled along; normalised errors are equal. Training with a given reference shape is trained on the same images whatever the resolution of each training image, and with a given diagonal the reference shape does not depend on the common resolution of the training images.", "quantifier": "every image, factor, initial shape, ground truth, list of features and scales, per-scale algorithm, result class and iteration budget; every training set and every resolution per image", "why_tests_cant": "all factors, all pictures and all algorithms at once; a test sees interpolation noise instead of the law", "anchors": ["menpofit/fitter.py:MultiScaleNonParametricFitter._prepare_image", "menpofit/fitter.py:MultiScaleNonParametricFitter._fit", "menpofit/fitter.py:MultiScaleNonParametricFitter.fit_from_shape", "menpofit/result.py:MultiScaleNonParametricIterativeResult", "menpofit/builder.py:rescale_images_to_reference_shape", "menpofit/builder.py:compute_reference_shape"]}
{"id": "C107", "title": "Double precision does not change iteration budgets or rankings by failure rate", "statement": "Computed in double precision, the number of iterations per scale is the exactly rounded quotient (for every budget below 2^52); values of cumulative error curves and failure rates rank two methods exactly as the fractions of images they stand for, lie in [0, 1], and are 0 or 1 only when no image or all images failed.", "quantifier": "every integer budget below 2^52 and every number of scales; every two arrays of errors and bins (products of the numbers of images below 2^52, or 2^51 for failure rates)", "why_tests_cant": "rounding errors show up only for particular quotients among an unbounded number; a test tries a few", "anchors": ["menpofit/checks.py:check_max_iters", "menpofit/error/stats.py:compute_cumulative_error", "menpofit/error/stats.py:area_under_curve_and_failure_rate"]}
{"id": "C108", "title": "Linear models report the landmarks of the dense shapes they fitted", "statement": "A fit with a linear AAM or ATM, which works on dense shapes, reports shapes that have the landmarks only: one shape per parameter vector, and the i-th is the landmarks of the i-th dense shape of the run (although it is rebuilt from the parameters after the run, when the transform has moved on); the i-th parameter vector is the one that was set in the i-th iteration.", "quantifier": "every linear model, every initial shape (landmarks or dense), every sequence of parameter vectors a solver can produce, every number of iterations", "why_tests_cant": "the shapes are reconstructed afterwards from the parameters with the transform in its final state: that this gives what was fitted depends on every state in between", "anchors": ["menpofit/aam/algorithm/lk.py:LucasKanadeLinearInterface.algorithm_result", "menpofit/atm/algorithm.py:ATMLucasKanadeLinearInterface.algorithm_result", "menpofit/transform/modeldriven.py:LinearOrthoMDTransform"]}
{"id": "C109", "title": "The filter images of an ensemble are the filters it was trained with", "statement": "The spatial filter images of an ensemble of correlation filter experts are the filters of the training, expert by expert and channel by channel, mirrored in both directions (pixel (i, j) of a p x q image is pixel (p-1-i, q-1-j) of the filter); the frequency filter images are the magnitudes of the Fourier transforms of the filters, zero frequency in the middle; n_sample_offsets is the number of offsets.", "quantifier": "every number of experts and channels, every patch shape and every real filter", "why_tests_cant": "the experts keep only the spectrum of the padded filter: the images are recovered by an inverse transform and a crop whose margins depend on the parity and size of the patch shape, and a test looks at one shape and mostly at one channel", "anchors": ["menpofit/clm/expert/ensemble.py:ConvolutionBasedExpertEnsemble.spatial_filter_images", "menpofit/clm/expert/ensemble.py:ConvolutionBasedExpertEnsemble.frequency_filter_images", "menpofit/clm/expert/ensemble.py:ConvolutionBasedExpertEnsemble.n_sample_offsets", "menpofit/math/fft_utils.py:crop"]}
{"id": "C110", "title": "Correlation filter experts are trained to answer with one peak, at their landmark", "statement": "The response that the experts of a constrained local model are trained to give has the size of the patch, is positive, decreases strictly with the distance from the pixel of the landmark (row h // 2, column w // 2) and so has its only maximum there, for odd and even patch shapes. With cosine_mask the training patches are multiplied by a window of the size of the context that weighs between 0 and 1, is symmetrical, never weighs a pixel more than the landmark's, and vanishes on the border and only there (so that nothing is left of a context with two rows or columns); without it they are left as they are.", "quantifier": "every patch shape and context shape, odd or even, every positive covariance, every patch", "why_tests_cant": "the place of the peak and the weights of the window depend on the parity of the sides; a test looks at one shape", "anchors": ["menpofit/clm/expert/ensemble.py:generate_gaussian_response", "menpofit/clm/expert/ensemble.py:generate_cosine_mask", "menpofit/clm/expert/ensemble.py:CorrelationFilterExpertEnsemble._extract_patch", "menpofit/base.py:build_grid"]}
{"id": "C111", "title": "Figures draw every number where it belongs", "statement": "plot_errors draws at abscissa j the error of the j-th shape and nothing else, from initial_error to final_error; plot_displacements draws at j the chosen statistic of the move from shape j to shape j + 1 and refuses other statistics; plot_costs draws the j-th cost at j and raises exactly without costs. The abscissae are the iterations 0 to n_iters. plot_cumulative_error_distribution draws one named curve per method, whose height at each abscissa is the fraction of that method's errors up to it; a list of numbers is one method; the abscissae run from the minimum to the maximum of the range in the given steps; a legend must name every curve.", "quantifier": "every result object with any number of shapes and costs, every error function, every non-empty collection of methods with any number of errors, every range and step", "why_tests_cant": "figures are compared by eye; an off-by-one abscissa or a curve that mixes methods is seen only for some lengths and types of input", "anchors": ["menpofit/result.py:NonParametricIterativeResult.plot_errors", "menpofit/result.py:NonParametricIterativeResult.plot_displacements", "menpofit/result.py:NonParametricIterativeResult.plot_costs", "menpofit/visualize/base.py:plot_cumulative_error_distribution"]}
{"id": "C112", "title": "A shape model learns the deformations of its shapes, not where or how they stand", "statement": "align_shapes, through which every shape model sees its training shapes, returns one shape per given shape: the shape itself moved, turned and scaled, centred on the origin, all with the same extent, the nearest copy of that extent to a common target, found by averaging until it moves by less than 1e-6. Shifting the shapes one by one changes nothing; turning them all turns the result; reordering them reorders it. Copies of one shape, each moved, turned and scaled in its own way, come out identical, so that no deformation is learnt from them. Training in batches, or with increment and forgetting_factor 1, sees the same aligned shapes as training at once, for every batch size.", "quantifier": "every collection of shapes with any number of points, every individual shift, scale and turn, every common rotation, every order and every split in batches", "why_tests_cant": "a test aligns a few shapes of one data set; misalignment shows as a slightly larger variance of a mode, and the batches of a test set divide evenly", "anchors": ["menpofit/builder.py:align_shapes", "menpofit/modelinstance.py:PDM.increment", "menpofit/modelinstance.py:OrthoPDM.increment", "menpofit/base.py:batch"]}
{"id": "C113", "title": "Training warns of what may spoil a model, and transforms refuse models they are not made for", "statement": "Training an AAM or ATM in batches without a reference shape warns about it once, and never otherwise. Training with piecewise affine warping on shapes without a triangulation warns that a Delaunay triangulation will be used. Building the frame of a reference shape warns exactly if it has no triangulation. ModelDrivenTransform, GlobalMDTransform, OrthoMDTransform and the unified algorithms are built exactly from objects of the documented shape model class or its subclasses, and raise ValueError for anything else.", "quantifier": "every class hierarchy above the library's own, every transform class, every number of shapes, batch size and reference shape, every model object or class", "why_tests_cant": "a warning that never comes is not missed by any test that does not wait for it; tests use the library's own classes only", "anchors": ["menpofit/checks.py:check_landmark_trilist", "menpofit/checks.py:check_trilist", "menpofit/checks.py:check_model", "menpofit/builder.py:build_reference_frame", "menpofit/aam/base.py:AAM._train", "menpofit/atm/base.py:ATM._train", "menpofit/unified_aam_clm/base.py:UnifiedAAMCLM._train"]}
{"id": "C114", "title": "Every pretrained fitter has a file and an address of its own", "statement": "Two requests for pretrained fitters use the same file exactly if they use the same address, and exactly if the name, the binary version of menpofit and the major version of Python agree. Loading any number of fitters, by any versions that share the data directory, with any failures and interruptions, leaves each fitter's file and gives each caller's outcome as if only that fitter had ever been loaded, and touches no other file. A fitter whose own file is missing is downloaded, whatever other versions have left on disk.", "quantifier": "every name (also ones that look like file names), every pair of versions, every history of loads with every environment", "why_tests_cant": "names and version numbers are concatenated without a separator that names cannot contain, so that collisions have to be excluded for all strings, and interference for all histories", "anchors": ["menpofit/io.py:filename_for_fitter", "menpofit/io.py:url_of_fitter", "menpofit/io.py:path_of_fitter", "menpofit/io.py:load_fitter", "menpofit/aam/pretrained.py:load_balanced_frontal_face_fitter"]}
{"id": "C115", "title": "The preprocessing of pretrained fitters shows them the surroundings of the shape, unchanged", "statement": "image_greyscale_crop_preprocess gives a window of the image (of its greyscale version if it has three channels, with all channels otherwise) that lies inside the image, at a whole number of pixels from its corner, with unchanged pixels; the returned transform is the translation back, exactly invertible. The window holds every place of the image in the bounding box of the shape enlarged on all sides by the proportion of its smaller side, and nothing a whole pixel outside of it. It raises exactly for shapes whose points all share a whole row or column number. With it, a pretrained fitter reports the caller's image, and its shapes start at the caller's shape and end at the final shape.", "quantifier": "every image, every point cloud (also partly or wholly outside the image, with fractional coordinates), every non-negative proportion; every wrapped fitter, heap and keyword arguments", "why_tests_cant": "rounding, clipping at four borders and the margin interact for all real coordinates; tests use a few images with the shape well inside", "anchors": ["menpofit/io.py:image_greyscale_crop_preprocess", "menpofit/io.py:PickleWrappedFitter.fit_from_bb", "menpofit/io.py:PickleWrappedFitter.fit_from_shape"]}
{"id": "C116", "title": "The noise of an alignment target is in proportion to the object", "statement": "noisy_target_alignment_transform aligns the source to the target with every point moved by its own normal draws, in units of noise_std times the height (for rows) and the width (for columns) of the target; without noise it is the plain alignment. A list as noise_std gives a deviation per point, as documented.", "quantifier": "every source, every non-empty target, every deviation or list of deviations, every outcome of the random generator, every alignment", "why_tests_cant": "the draws are random and the function is not tested; whether a list of deviations meets the points or the axes depends on numpy's broadcasting for every number of points", "anchors": ["menpofit/fitter.py:noisy_target_alignment_transform"]}
{"id": "C117", "title": "Every landmark group is drawn with the options written for it, and viewing changes nothing of the caller's", "statement": "view_image_multiple_landmarks draws the k-th landmark group with, for each of render_lines, line_style, line_width, render_markers, marker_style, marker_size and marker_edge_width, the single value given, the only value of a list, or the k-th value of a list, also if options share lists; it raises ValueError exactly if an option is neither of the right type nor a list of one value or of a value per group. Views with the same number of groups do not disturb each other. The caller's lists are left as they are.", "quantifier": "every number of groups, every assignment of values and (possibly shared) lists to the options, every history of the caller's lists", "why_tests_cant": "figures are compared by eye, and the change of an argument shows only in a later call with another number of groups", "anchors": ["menpofit/visualize/base.py:view_image_multiple_landmarks", "menpofit/visualize/base.py:_check_multi_argument", "menpofit/result.py:view"]}
