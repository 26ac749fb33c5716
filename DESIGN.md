# Formal model of OpenVINS (rpng/open_vins) in Rocq

## 1. What this is

`/verif/rocq/theories` contains a hand-written Gallina model of selected functions of the
C++ code in `/repo`, specifications of the properties listed in `properties.jsonl`, and
machine-checked proofs (Coq 8.16.1).  Nothing is extracted from or run against the C++ code:
the tie between the two is the source citation carried by every definition of the model.

File naming convention

* `Model*.v` / `*_model.v` parts: definitions that transcribe the C++ code; every definition cites file and lines.
* `Spec` definitions: small definitions used only to state properties (no reuse of model helpers).
* `*Proofs.v`: lemmas.
* `P_*.v`: the property theorems, each closed by `exact` a lemma, followed by `Print Assumptions`,
  with `Example`s showing that the hypotheses are met by a concrete non-trivial case.

## 2. Modelling decisions (apply everywhere unless a definition says otherwise)

* **Numbers.** `double`/`float` values are modelled by exact real numbers (`R` of the standard
  library).  Rounding, overflow, infinities and NaN are *not* modelled; where the C++ code can
  divide by zero, take the square root of a negative number or feed NaN into a comparison, the model
  returns a distinct outcome or the theorem carries the guard.  Timestamps are only compared,
  added and subtracted; they are reals too (or `Z` in the purely discrete state machines, where only
  their order matters).
* **Matrices.** `Eigen::MatrixXd` is a pair of sizes and a function `nat -> nat -> R`; equality is pointwise on
  the index range.  `.block(...)` with out-of-range arguments is undefined behaviour (an Eigen assertion);
  where ranges are not obviously respected, the model has an explicit error outcome.
* **Process termination.** `std::exit(EXIT_FAILURE)` is the outcome `Exit`; undefined behaviour is the outcome `UB`.
  (`assert` failures are treated as `UB`: they are compiled out in release builds.)
* **Pointers.** `shared_ptr` identity is modelled by natural-number handles or by position.
* **Containers.** `std::unordered_map` iteration order is unspecified: the model iterates over a list of
  key/value pairs in an arbitrary but fixed order, theorems hold for every order.
* **External code** (Eigen decompositions, OpenCV, Boost, Ceres, ROS) is not modelled; where a result is needed
  it is a universally quantified argument with its documented contract as hypothesis (never an axiom).

## 3. Trusted base

* Coq 8.16.1 kernel and `coqc`.
* The axioms printed by `Print Assumptions` under each theorem.  They are axioms of the Coq standard library only:
  `ClassicalDedekindReals.sig_forall_dec`, `ClassicalDedekindReals.sig_not_dec`,
  `FunctionalExtensionality.functional_extensionality_dep` (all three via `Reals`) and, where Coquelicot or
  classical real analysis is used, `Classical_Prop.classic` / `Eqdep.Eq_rect_eq.eq_rect_eq` /
  `ClassicalEpsilon`-style axioms of the standard library.  The purely discrete developments are closed under the global context.
* The reading of the C++ code recorded in the comments (simplifications are stated there).
* Contracts of external code that appear as hypotheses on quantified arguments (each is shown satisfiable by an `Example`):
  inverse of a symmetric positive definite matrix (`LLT::solve`, C06, C15, C49, C86), `JacobiSVD` (C66), eigenvalues and rank of a
  companion matrix (`eigs_ok`, `rank_ok`, C86), chi-square quantiles (arbitrary values, C08, C16), OpenCV tracking, detection and
  RANSAC (arbitrary answers of the right length, C45-C47, C68), random number draws (arbitrary values, C54, C55, C74),
  the ROS middleware (arbitrary message order, C57), OpenCV's conversions of well typed configuration nodes (`faithful`, C104-C106)
  `ColPivHouseholderQR::solve` for an invertible matrix (`solves`, C106), `std::atof` (an arbitrary function of the field, C108, C109) and `operator<<` of a number (an arbitrary non-empty word for each precision and number, `plain`, C111; the number of cameras is read back exactly).

## 4. Properties: what is modelled and how it is proved
* **C01** — `ov_type` objects as trees with ids; `clone`, `marginalize`, `initialize_invertible`, `augment_clone` as functions on (variable list, covariance). Invariant `layout_ok` proved for the constructor and preserved by each step; lifted to all op lists by induction.
* **C02** — Same model; pointwise equality of every survivor block, for all positions of the removed variable.
* **C03** — Same model; covariance compared with a separate `J P J^T` specification.
* **C04** — Same model, including the time-offset branch.
* **C05** — Block-loop model of EKFPropagation; compared with full-width `F P F^T + Q` specification by sum manipulation.
* **C06** — Block-loop model; the LLT solve is a quantified matrix with contract `S * Sinv = I` (Section argument), and `get_marginal_covariance` modelled; compared with the full-width Kalman formulas.
* **C07** — Quadratic-form definition of PSD; Joseph-form identity; induction over op lists.
* **C08** — Model of `initialize` with the chi2 quantile as an argument.
* **C09** — Model of `initialize_invertible`; block formulas and PSD by completing with the linear map.
* **C10** — Constructor as a fold over cameras; layout and diagonal prior for all options.
* **C11** — Block-loop model compared with index-mapping specification.
* **C12** — `margtimestep`, `marginalize_old_clone` on an ordered clone list; frame-level state machine.
* **C13** — Erase-while-iterating loop on landmark list.
* **C14** — Givens loops as in the code (column by column, bottom up) on functional matrices of arbitrary size; orthogonality invariants.
* **C15** — Same Givens engine.
* **C16** — UpdModel.v (UpdaterMSCKF::update, UpdaterSLAM::update: Hx_mapping, block copies, conservativeResize as size checks, gating, marking; triangulation and the feature Jacobian are arguments), UpdSpec.v (`stacked`: every row over the whole state equals the feature's own row), UpdProofs*.v, P_Update.v. The MSCKF result is compared with an EKF update on the uncompressed stack.
* **C17** — Same files; feature life cycle through clean_old_measurements, triangulation, gate, marking and FeatureDatabase::cleanup, for the MSCKF update, the SLAM update and delayed initialization.
* **C18** — AnchorModel.v models UpdaterSLAM::change_anchors/perform_anchor_change, the insertion of landmarks by delayed_init and the camera frame around them on top of the state model; AnchorSpec.v `passes` is the set of states reached by cloning, respected updates and initializations, change_anchors and only then marginalize_old_clone. P_Anchor.v: C18_anchors_live for every such state (any number of frames, landmarks, cameras, representations), C18_frames_defined (a frame never meets a missing clone or a failed assertion), C18_order_matters (dropping first dangles).
* **C19** — DbModel.v (FeatureDatabase, Feature on association lists), DbSpec.v (observations as a list of triples, written without the model's loops), DbProofs*.v, P_Db.v. Invariant by induction over all operation lists.
* **C20** — Same files; the spec selects by membership of times. Out-of-order feeding is a refuted case.
* **C21** — Same files; the spec is a filter on observations.
* **C22** — Same files; union proved, order preservation and duplicate suppression refuted.
* **C23** — ImuModel.select_imu_readings is the index loop with both interpolations, the final stretch and the 1e-12 compaction; proved for all chronological data covering the interval, with the three uncovered situations characterised (empty, late, early); the initializer's copy without the stretch is refuted.
* **C24** — Fold of feed_imu over any message sequence equals the independent specification `buffered`; VioManager's discard time keeps every reading from the filter time on if the camera-IMU offset is at least -0.10 s, refuted below.
* **C25** — interpolate_data is characterised as the unique point on the line at t; endpoints and componentwise bounds.
* **C26** — Polynomial identities (`ring`/`nra`) over R.
* **C27** — All four branches of the code; square roots eliminated through their defining equations.
* **C28** — Closed forms with sin/cos; branch thresholds as in the code.
* **C29** — Same.
* **C30** — atan2 defined from atan with its quadrant cases.
* **C31** — Types model (value/fej lists with nested components).
* **C32** — CamModel: distort_f and compute_distort_jacobian of CamRadtan. `pixel_jacobians`: along every differentiable curve of coordinates and intrinsics the pixel moves as the Jacobians say (Coquelicot is_derive). C32_unique: no other matrices have this property.
* **C33** — Same for CamEqui (atan, sqrt), for radius > 1e-8; on the axis the derivative is the pinhole one (C33_axis) while the code returns zero (C33_everywhere_refuted).
* **C34** — LandModel: Landmark get_xyz/set_from_xyz for the six representations; acos/atan2 identities. The two inverse-depth forms with bearing ignore the isfej flag (C34_fej_refuted).
* **C35** — HelpModel: get_feature_jacobian_representation, both modes. Derivative of the global position along arbitrary motions of anchor pose, extrinsics and parameters. The Jacobian belongs to the parameters computed from the point; C35_stored_refuted shows the sign error when the stored polar angle has gone below zero.
* **C36** — HelpModel: get_feature_jacobian_full with column layout, block writes and extra anchor Jacobians, any number of cameras/clones/measurements. Derivative of every predicted pixel along every motion of clones, extrinsics, intrinsics and landmark (C36_derivatives), chain at first estimates (C36_both_modes), definedness (C36_defined).
* **C37** — FeatModel.v models both triangulations with the choice of anchor; Eigen's solver is any function solving nonsingular systems, the singular values are any function. C37_exact: on consistent data the result is the point, rejected exactly for depth or condition number. C37_least_squares: on any data it minimises the sum of squared distances to the viewing lines. C37_exact_1d, C37_range, C37_anchor, C37_defined.
* **C38** — FeatModel.v models the damped Gauss-Newton loop with infinite and NaN costs. C38_terminates and C38_passes bound the passes for every solver and data (23 with the default options); C38_descent: the reprojection error of the result is not above that of the start; C38_checks: depth limits and baseline in geometric terms; C38_gradient: grad is minus half the gradient of the reprojection error. C38_zero_lambda_refuted: with init_lamda = 0 the loop can run forever.
* **C39** — BsplModel.v models BsplineSE3.cpp 28-356 (feed_trajectory, get_pose, get_velocity, get_acceleration and both lookups), 4x4 matrices by 3x3 block, last column and corner. Basis functions: derivatives in t. Velocities and accelerations: entrywise derivatives of the curves returned by get_pose / get_velocity, by the product rule on pose0*A0*A1*A2 and the derivative of exp_se3 along a ray, at every time inside a segment and (two-sided, neighbouring segments glued by exp(log T) = T) at every knot, whenever no factor sits inside exp_se3's small-angle switch. Inside the switch, which with exact logarithms is confined to the first 13 percent of a segment, the velocity error is bounded by 1e-22 segment lengths per segment duration, and shown to be nonzero on an example.
* **C40** — Lookups on a std::map modelled as sorted list with index iterators, asserts as UB. Success iff four neighbouring entries surround the time; the outcome is never an assertion failure. feed_trajectory: the loop terminates and yields a uniform grid over the trajectory without its last line, so get_pose succeeds exactly on [tmin+dt, tmin+(n-2)dt); every control point lies on the geodesic between the two file poses around its time (C40_feed).
* **C41** — `InitModel.gram_schmidt` (InitializerHelper.cpp) over exact reals; for every non-zero gravity direction the result is a rotation (orthonormal, det 1) whose third column is g/|g|; UB (division by zero) exactly for the zero vector. Theorems C41_*.
* **C42** — `InitModel.static_initialize` (StaticInitializer.cpp 33-153), both windows, both thresholds; accepted exactly when the specification windows/deviations say so, and the returned state satisfies the gravity, bias, time and covariance facts. Theorems C42_*.
* **C43** — `InitModel.compute_dongsi_coeff` (InitializerHelper.cpp, all seven coefficients transcribed) and `companion`; the polynomial equals det(D-lI)^2 - d^T adj(D-lI)^2 d/g^2, its regular roots are exactly the multipliers giving |v|=g, the companion matrix has them as eigenvalues. Theorems C43_*.
* **C44** — `InitModel.compute_disparity`, `compute_disparity_range` (FeatureHelper.h); for every database with parallel arrays which two entries of a track are compared (first entry at each time; first entry newer than the lower bound and last later one older than the upper bound), mean and sample deviation. The announced -1 failure report is refuted (missing return): C44_failure_report_refuted.
* **C45** — TrackModel.v: TrackKLT (detection, matching, mono/stereo frames), TrackSIM, TrackAruco id assignment as functions on (currid, per-camera lists, database); OpenCV answers are arguments. Invariant by induction over all runs with arbitrary database clean-ups in between: ids NoDup per camera, above the ArUco range, never reused, shared only inside stereo pairs. Simulated tracker: database tracks and remembered points. Refuted for ArUco: the tag id equal to the maximum passes the check and collides.
* **C46** — change_feat_id on the same model; refuted when the new id is in use.
* **C47** — The erase-while-iterating loop and the top-up of perform_detection_monocular; stated with real intervals (stays, same_cell), incl. maximality; pairwise pixel distance refuted.
* **C48** — `EvalModel.perform_association` (AlignUtils.cpp:103-189): two-pointer loops over suffixes of the groundtruth; C48_association (increasing, within tolerance, parallel outputs), C48_nearest (greedy nearest neighbour for ordered times), C48_nearest_at_tolerance_refuted.
* **C49** — `EvalModel.calculate` (Statistics.h:73-121) over exact reals, 0/0 as None; C49_calculate, C49_order_independent; repeated calls and reuse after clear() refuted (C49_second_call_refuted).
* **C50** — `EvalModel.align_umeyama`, `get_best_yaw`; cost decomposition over centred sums, C50_yaw_alignment_optimal, C50_exact_alignment; the single-pose methods in C50_single_pose.
* **C51** — `EvalModel.compute_comparison_indices_length`, `accum_distances`, `get_total_length`; C51_segments, C51_distances.
* **C52** — VioManager frame-level state machine with oracle for initialization and feature processing.
* **C53** — UpdaterZeroVelocity::try_update is modelled whole (ZuptModel.v): reading selection with the stored offset, the loop that fills the whitened stack, compression, gate, disparity override, bias propagation, update, bookkeeping. Proved: a refused call changes neither state nor database; an accepted call sets the clock to the requested time, keeps the shape of the state and is exactly the Kalman update of the state with the stacked rest conditions (rate zero, specific force = gravity) with prior covariance + bias random walk; the decision is exactly (still image or gate and speed), the gate being the Mahalanobis distance with that same prior; readings in order give a returned value in a reachable state. The Jacobian used is the exact derivative iff the IMU has no scale/misalignment/g-sensitivity. Refuted: an image older than the state can be accepted and moves the clock back.
* **C54** — SimModel: get_next_imu, get_next_cam, driver loop with arbitrary spline answers and draws. Every emission happens at the smaller of the two next times; each sensor ticks at its rate; a pass always emits or stops; a finite spline ends the run after (T-t0)(fi+fc) passes.
* **C55** — PropModel (sim_reading, correct) against a quantified inverse of Dw, Da (the answer of Eigen's QR solve): C55_noise_free recovers both readings' true rates and forces; C55_with_noise says how noise enters; C55_end_to_end combines it with the exact integration C69.
* **C56** — PropModel compute_H_D (Dw and Da share it), compute_H_Tg: derivative and exact increment.
* **C57** — RosModel models the three callbacks of ROS1Visualizer.cpp 438-588 (single-threaded mode) and CameraData::operator<; any message sequence is a run. C57_conserved (each accepted image delivered at most once, otherwise queued; per camera in acceptance order and at least one period apart), C57_waits (delivery only by a later IMU message; everything old enough is delivered when every camera has an image queued, nothing otherwise), C57_single_order (one stream: increasing times for every arrival order). The unrestricted multi-camera ordering is refuted (C57_multi_order_refuted): the camera count is tested once before the hand-over loop.
* **C58** — FastModel: fast_state_propagate function by function (cache take, selection, discrete mean step, its own 15x15 F/G/Qd, the 12x12 output covariance) and the Propagator object with the calls feed / propagate / invalidate / query interleaved over an arbitrary filter (`view`, `prop` are any functions). Non-interference: erasing queries from any call sequence leaves the visible run unchanged. Replay: the cache is the snapshot of the first query carried over adjoining intervals. The answer equals the filter's own discrete prediction over the same readings (mean always; covariance for ideal intrinsics, g-sensitivity zero, FEJ not in force). PSD while time goes forward. Refuted readings: first query adds the camera offset and later ones do not, so a negative offset makes a query propagate backwards with negative variances; intrinsics are left out of F; the local-velocity covariance leaves out the orientation error unless v = 0.
* **C59** — PropModel compute_F_discrete, compute_G_discrete, predict_mean_discrete; is_transition in PropSpec: derivative of the mean along the filter's own error parametrisation for all 15/30/39 error components. Holds without intrinsic calibration or when Dw Tg = Tg (C59_transition); noise Jacobian always (C59_noise); exact criterion C59_exactly_when; C59_transition_refuted: the (orientation, Da) block lacks the factor Dw (Propagator.cpp 928).
* **C60** — P_Anchor.v: C60_value, C60_covariance (the landmark rows are replaced by Phi applied to the listed variables, Phi being the map that re-expresses error rates, exact or least squares for the single depth), C60_others_untouched, C60_defined. C60_first_estimate for the anchored 3D and full inverse depth forms; C60_first_estimate_refuted for MSCKF inverse depth (get_xyz(true) returns the current value); C60_optical_axis_refuted: no linear map exists for the full inverse depth on the optical axis.
* **C61** — ShowModel.v models get_features_SLAM and get_features_ARUCO (VioManagerHelper.cpp 417-463). On a reachable state whose anchors are live neither listing touches a missing clone, every landmark appears in exactly one of them, and its position is the unique global point described by the landmark's representation and anchor pose.
* **C62** — PropModel default_dw, Dm, load_D, load_Tg: KALIBR default is the identity; RPNG default is singular (C62_rpng_refuted); loading from a config is faithful exactly for triangular matrices.
* **C63** — Same files as C19.
* **C66** — `EvalModel.align_umeyama` with the SVD as oracle meeting its contract (orthogonal U, V, ordered non-negative singular values); trace inequality for orthogonal matrices of either determinant; C66_*.
* **C67** — `EvalModel.result_new`, `apply_align`, `ate_errors`, `rpe_errors`; C67_*; EvalErr.v: the errors are angles and distances, the statistics those of exactly these values. The files are read by FileModel (C108).
* **C68** — feed_monocular / feed_stereo on the same model: exact characterisation of the kept points and of the database tracks after the frame.
* **C69** — PropAna: uniqueness of the solution of the linear matrix ODE, closed forms of its integrals; C69_exact above half a degree per second, C69_slow_refuted below (the small-rate branch is not exact).
* **C70** — PropAna: block rows of F and G against the derivative of the mean; fast_rate excludes the small-rate branch.
* **C71** — PropThms, RkThms: induction over the readings; C71_state describes the state (means, first estimates, untouched parameters).
* **C72** — RkSpec.v states the classical Runge-Kutta step independently (tableau, strap-down equations, readings linear in time); RkThms: the code's stages are that step. PropThms: without rotation the polynomial solution of the ODE is met exactly.
* **C73** — SimModel get_state, feeds (run_simulation's one-frame buffer). The hand-over needs fc <= fi and a spline defined on an interval. C73_minus_one_refuted: a frame stamped exactly -1 is lost.
* **C74** — SimModel project_pointcloud, cam_feats, generate_points; the camera model is a parameter with distort(undistort uv) = uv where needed.
* **C75** — Uses the C36 row formula; rotation identities R(a x b) = Ra x Rb; null direction built from first estimates only in first-estimate mode.
* **C64** — VioManager.cpp 280-596 as message/update_frame (SelModel.v) on top of the updater, database, propagation and zero-velocity models; the trackers are replaced by the measurements they store. Proved for runs that return, through an invariant (ready, SelSpec.v: no landmark has a measurement at a clone time outside the current frame, database strictly ordered per camera) and a log of everything used; select_spec (SelSelect.v) shows that a feature can be both candidate and landmark only with no measurement at a clone. Excluded and stated as hypotheses: the ANCHORED_INVERSE_DEPTH_SINGLE representation (its anchor measurement is kept), messages of one camera out of order; max_slam_in_update = 0 never returns in the code (UB here).
* **C65** — StartModel.v models InertialInitializer::initialize statement by statement, using the models of FeatureHelper and the static initializer; the dynamic initializer is a quantified function. Specified in StartSpec.v (`dispatched`) in terms of the newest measurement, the displacement of tracks between the ends of an open range, and their mean; proved in StartThms.v: C65_dispatch, C65_returns, C65_never_without_threshold. Hypotheses: database consistent and tracks in time order (which the tracker guarantees, C68).
* **C76** — VioManager.cpp 288-321 as vio_frame (ZuptModel.v) on top of the frame model of C52. Proved by one invariant (reachable state, window_ok) through both paths; refuted without the order condition: an old image accepted as at rest, followed by a repeated image time, ends in std::exit (duplicate clone).
* **C77** — Same model and invariant as C64; counting argument plain_grows (SelRun.v) over the decomposition of the selection.
* **C78** — `delayed_init` of UpdModel and `aruco_track` of TrackModel; specification TagSpec (`init_run`: the sequence of calls to initialize) and UpdSpec (`slam_noise`). Theorems `C78_delayed_calls`, `C78_corner_options`; the last sentence is false of the code: `C78_tag_noise_refuted` (corners 1 to 3 have ids at or above max_aruco_features, which the updater compares against, so they get the options of ordinary landmarks).
* **C79** — modelled by SelModel (`select`, `truncate`, `update_frame`, `message`); specification FateSpec (`tracks_taken`), independent of the selection steps: eligibility is stated on the database and the window. Theorem `C79_tracks_taken`, under C64's start condition and for representations other than single inverse depth; proofs FateSel, FateThms, FateRun; example FateEx. `C79_late_image` covers the early return for images older than the state.
* **C80** — same model; specification FateSpec (`landmarks_after`, `given_up`). Theorems `C80_landmark_fate` and `C80_failures_accumulate` (a used landmark keeps its failure count unless it was given up and initialized anew: the comment in VioManager.cpp 459 says failures in a row, the code counts all).
* **C81** — StartModel.v models lines 149-163 of VioManagerHelper.cpp (`forward`) and try_to_initialize with its thread as an event system (message / final section of the thread / thread flag reset). C81_forward and C81_interleaved are proved by showing that every step is a frame of the reachable-state model (C12) with nothing to marginalize; C81_unordered_exits shows that the order of the queue matters.
* **C82** — CpiModel is CpiV1::feed_IMU statement by statement over exact reals (both branches of the small-angle switch). CpiSpec defines a body moved piecewise by `kinematics` (the strap-down equations, an existential over solution curves); `means_thm` combines the explicit solutions (zero rate: polynomial; otherwise the Rodrigues flow of PropAna) by induction over the readings. `moves_exists` shows every list of pieces has a motion.
* **C83** — CpiJac: derivatives of the four coefficients in the rate magnitude (auto_derive), of the Rodrigues matrix along a curve of rates, of the increments R^T arg a, then induction over the readings with the biases moved along a line. At zero rate the neighbourhood stays in the small-angle branch, so the statement covers the branch as coded.
* **C84** — DynModel is DynamicInitializer.cpp 44-570 statement by statement (selection of poses 106-158, rotation check, bearing and preintegration loops, linear system, constrained solve, recovery of states); features keep the database order in place of the order of an unordered_map (all theorems quantify over all databases). Invariants of `scan` over features and cameras; C84_rows by counting the observations at selected poses twice; C84_defined covers all `.at()` and asserts; C84_few_readings_refuted shows that its hypothesis on the readings is needed. C84_rotation and C84_angle (proofs DynTurn) are about the rotation check of 160-196.
* **C85** — DynSpec defines `travels` (every pose is reached by `moves`, the strap-down equations of C82, from the first) and `sees` (exact projection with positive or negative but nonzero depth) without reference to the system; C82 supplies the motion in closed form, each pair of rows is then checked.
* **C86** — llt().solve(I), JacobiSVD::rank and EigenSolver are arguments of `solve` with contracts `inverse`, `inv3_ok`, `rank_ok`, `eigs_ok` (the last two only for companion matrices); DynSolve.v: elimination of features and velocity (`reduced`), Lagrange condition, positive definite shift gives a global minimum (`step_ge`), link to the polynomial proved in C43, degenerate case `exact_thm`. `C86_exact_gives_up`/`C86_exact_data_gives_up`: the coefficient of degree 0 vanishes for a consistent system, so rank < 6. With rounding the rank test sees a tiny singular value, hence the result on real data depends on noise.
* **C87** — guess_thm: frame changes of lines 440-570 composed with C82; the statement about motion is conditional on rates outside the small-angle branch (as C82).
* **C88** — CeresModel.jpl_plus/jpl_minus/jpl_jac, CeresSpec.turned_by (matrix exponential series), proofs in CeresQuat.v. C88_plus_turns, C88_plus_derivative, C88_minus_plus, C88_plus_minus; C88_minus_tiny_refuted (Minus of a 1e-9 turn is zero), C88_plus_jacobian_refuted (missing factor 1/2 and the dependence on q: deliberate in the code, paired with the padded Jacobians of the terms).
* **C89** — CeresModel.img_res/img_jac, CeresSpec.imove/ipredict, CeresImg.v: chain rule on rotation, projection and the C32/C33 distortion Jacobians. The random gate of the constructor is a field of the term.
* **C90** — CeresModel.imu_raw/imu_raw_jac/imu_factor; CeresSpec.follows states the predicted state with matrices only; CeresImu.v (quaternion part, with the sign), CeresRows.v (all rows), CeresZero.v (zero set, cost, link to C82/C83), CeresBad.v (refutations). The inverse and the LLT of the covariance are oracles with contracts.
* **C91** — CeresModel.prior_new/prior_eval over an arbitrary list of typed blocks; CeresSpec.block_err states the difference with is_mexp; CeresLog.v (derivative of the logarithm), CeresPrior.v. LLT and triangular inverse are oracles returning None for not-a-number.
* **C92** — `MleModel.assemble`, `cost`; spec `MleSpec.built`, `values`, `fits`, `truth`; proofs MleBuild (assembly), MleZero (zero set). `C92_problem`: the problem has the stated terms. `C92_zero`: the cost is defined, not negative, and zero iff `fits`; needs rates the preintegration handles exactly (`steady`), orientations near enough the prior for the logarithm (`near_q`) and a nonzero pixel noise. `C92_truth`: exact data make the truth a global minimum. The example uses stand-in factorizations (identity for the IMU weights).
* **C93** — `MleModel.finish`, `cov_out`; spec `MleSpec.blocks_of`, `inflated`; proofs MleHand. `C93_cov`, `C93_psd`, `C93_defined`, `C93_state`. Refuted: with a factor below one the covariance can be indefinite (`C93_shrink_refuted`); a call that returns false because the covariance cannot be computed has already overwritten the IMU state (`C93_untouched_refuted`); the returned IMU position differs from the clone of the same time (`C93_position_refuted`).
* **C94** — `RetriModel.retriangulate`, `retri_run`; spec `RetriSpec.eye`, `views`, `kept`, `whole`, `normal`, `closest`; proofs RetriProofs, RetriThms, RetriShow. `C94_eye`, `C94_system`, `C94_whole`, `C94_position`, `C94_exact`, `C94_recovered`. Refuted: with two cameras all observations are kept (`C94_stereo_refuted`: the new system of the first camera is replaced by the one of the second).
* **C95** — `RetriModel.slam_step`, `uvd_step`, `retriangulate`; spec `RetriSpec.stands`, `pixel0`, `complete`. `C95_landmark`, `C95_uvd`, `C95_defined`.
* **C96** — `GtModel.initialize_with_gt`; spec `GtSpec.gt_sigma`, `StateSpec.uncorrelated`, `DbSpec.cleaned`. `C96_start` by the covariance-overwrite lemma of the start-up (C43) on the IMU block; `C96_constructed` gives its hypothesis for a new state.
* **C97** — `GridModel.regrid`, `per_cell`, `keep_pts`, `cell_pts`, `extract`, `perform_griding`; spec `GridSpec.grid_used`, `cell_result`, `fits`, `inside`. FAST, std::sort and cornerSubPix are arguments with contracts (`fast_ok`, `sort_ok`, same length). `C97_grid`, `C97_cells`, `C97_defined`; `C97_quota_refuted`.
* **C98** — `GridModel.valid_locs`, `mask_updated`, `search`, `detections`; spec `in_cell`, `crowded`, `square`. `C98_search`, `C98_mask`, `C98_free`, `C98_found`, `C98_edge`; `C98_few_refuted`, `C98_zero_refuted`.
* **C99** — `DescModel.robust_match`, `ratio_test`, `symmetry_test`, `desc_mono`, `desc_stereo`, `merge_ids`, `merge_stereo`, `record_pairs`, `desc_feed_mono`, `desc_feed_stereo`, `desc_feed`; spec `DescSpec.agree`, `mono_res`, `stereo_res`, `dreach`, `observed`. knnMatch and findFundamentalMat are arguments with contracts (`knn_ok`, `rsc_ok`), extraction and ORB per image an argument. `C99_match`, `C99_detect`, `C99_detect_all`, `C99_ids`, `C99_mono`, `C99_stereo`, `C99_defined`, `C99_pairs`; `C99_mixed_refuted`, `C99_spacing_refuted`, `C99_size_refuted`, `C99_first_refuted`.
* **C100** — `SimsModel.find_motion`, `start_times`, `start_state`, `sim_new`; spec `SimsSpec.uniform`, `finish`, `walked`, `first_beyond`. Hypotheses on the spline discharged by `C100_fed`. `C100_start`, `C100_exit`, `C100_nan`, `C100_defined`.
* **C101** — `SimsModel.scale_draw`, `map_frames`, `map_cam`, `make_map` on top of `SimModel.project_pointcloud`, `generate_points`; spec `SimsSpec.sees`, `on_ray`. `C101_enough`, `C101_points`, `C101_ids`, `C101_prefix`; `C101_between_refuted`. The uniform draws are an argument.
* **C102** — `SimsModel.copy_cams` (camera objects in a heap, pointers as indices), `perturb_cam`, `perturb_imu`, `perturb_tg`, `perturb_parameters`, `meas_seeds`, `px_noise`; spec `SimsSpec.perturbed`, `param`, `src`, `turned_by`. `C102_truth`, `C102_perturbed`, `C102_independent`, `C102_off`; `C102_noise_refuted`. The normal values are an argument.
* **C103** — `CpiModel.cpi_F`, `cpi_G`, `cpi_Pdot`, `cpi_cov`, `cpi_mid`, `cpi_Qc`, `cpi_feed`; spec `CpiCovSpec.lin_rates` (derivatives of the rates of the motion along a curve of states), `true_cov` (the covariance differential equation), `steady`. `C103_symmetric`, `C103_bias`, `C103_order`, `C103_still` (the exponential series ends, since the error rates without rotation are nilpotent, so the exact covariance is given and unique), `C103_rates_unique`; `C103_psd_refuted`. For a turning body the existence of the exact covariance is a hypothesis of `C103_order`.
* **C104** — `CfgModel` models the parser as computations that carry the flag `all_params_found_successfully` (`M A := bool -> outcome (A * bool)`); node trees, files, ROS parameters and OpenCV's conversions are arguments. Spec in `CfgSpec`: `given`, `given_in`, `bool_node`, `in_dir`, `section`, `complete`, `faithful` (the contract of the conversions, met by `demo_ocv`). `CfgProofs.indep`: outcome and value of every computation do not depend on the flag. `C104_success`, `C104_flag`, `C104_complete`, `C104_sources`, `C104_bool`, `C104_folder`, `C104_exit_file`; `C104_folder_refuted`, `C104_matrix_refuted`, `C104_nofile_refuted`.
* **C105** — `CfgModel.read_cam`, `load_cam`, `load_cams`, `load_init`, `load_all`, `load_mask`; spec `cam_section` (the pose in either notation), `file_pixel`, `size_at`. `cams_inv` takes the loop apart, `read_cam_file` computes one camera, `rot_inv3` compares the two notations. `C105_camera`, `C105_agree`, `C105_keys`, `C105_mask`, `C105_mask_size`; `C105_mask_refuted`.
* **C106** — `CfgModel.load_imu`, `load_options`; spec `gyro`, `accel` (the sensor), `imu_section`, `solves` (contract of the linear solver, met by the adjugate in `demo`). The inverse of a triangular matrix is triangular (`tri_inv`), `load_D_thm` of C62 and `sim_exact` of C55 finish. `C106_imu`, `C106_exit_model`; `C106_triangular_refuted`.
* **C107** — `BatchModel.loop_body`, `loop_step` (one pass of the loop body) beside `SelModel.slam_batches`; spec `BatchSpec.cut_into`, `in_turn`. `C107_terminates` (accessibility), `C107_batches`, `C107_loop`, `C107_pieces_unique`; `C107_zero_refuted`, `C107_negative_refuted`.
* **C108** — `FileModel` models the readers on characters (`getlines` is std::getline until it fails); std::atof is an argument. Spec `FileSpec.cells`, `words`, `through`, `pose_line`, `csv_line`, `row8_line`, `row_line`, written as relations between text and meaning. `C108_lines`, `C108_words`, `C108_samples` (existence and uniqueness), `C108_data`, `C108_csv`, `C108_simulation`, `C108_trajectory`, `C108_percent`, `C108_missing`; `C108_blank_refuted`.
* **C109** — `FileModel.load_gt_file`, `get_gt_state` (std::map as an ascending list, insert keeps the old entry); spec `gt_line`, `too_long`, `first_wins`, `nearest`, `handed`. `C109_load`, `C109_lookup`; `C109_format_refuted`.
* **C110** — `ErrModel.calculate_error`, `calculate_nees`, `calculate_ate_2d`; spec `ErrSpec.axis_errors` (`turned_body`, `angles_of`, `rates` as a derivative, `carried`, `sigmas`), `nees` (`normalized`). `C110_errors`, `C110_wrap`, `C110_rates`, `C110_nees`, `C110_nees_sign`, `C110_nees_without`, `C110_planar`; `C110_angle_refuted`. Singular covariances (numbers that are not finite) are outside; half turns too for the logarithm.
* **C111** — `SimFileModel` has the writer row by row (`est_row`, `std_row`, `gt_row`, `file_text`) and the loops of ResultSimulation (`plot_state`, `plot_timeoff`, `plot_intr`, `plot_extr`, `plot_imu`); spec `SimFileSpec.shows_*` names the quantities without column numbers, `plotted` the frames. `C111_files` goes through `load_simulation` of C108. `C111_state`, `C111_time`, `C111_intrinsics`, `C111_extrinsics`, `C111_imu`, `C111_turn`, `C111_written`; `C111_outside_refuted`, `C111_foreign`. A number read back is any function `rd` of the precision and the number written, so rounding is covered (a deviation rounded to zero hides the plot); the drawing is not modelled.
* **C112** — Same model as C58 (`FastModel.do_propagate`, `do_call`, `run_calls`); spec `AdjSpec.history` (the pieces of the IMU clock whose readings advanced the state), `adjoin`, `used`. `C112_adjoin`, `C112_total` (with C58_interval); `C112_zero_velocity_refuted`. The step of the state is any function that sets its time, which Propagator.cpp 133 does.

## 5. Coverage: which parts of the code are modelled

The table is generated by `tools/coverage.py` from the citations in the model files.

<!-- coverage begin -->
| model file | source lines cited |
|---|---|
| `AnchorModel.v` | Feature.cpp 26-53; FeatureInitializer.cpp 38-46; Landmark.h 39-74; PoseJPL.h 122-138; State.cpp 106-123; State.h 141-192; Type.h 57-67; UpdaterHelper.cpp 32-190, 202-262; UpdaterSLAM.cpp 61-250, 481-647; VioManager.cpp 323-596 |
| `BatchModel.v` | VioManager.cpp 536-548 |
| `BsplModel.v` | BsplineSE3.cpp 26-90, 92-247, 249-299, 301-356; BsplineSE3.h 161-171; quat_ops.h 332-363, 419-424 |
| `CamModel.v` | CamBase.h 123-129, 158; CamEqui.h 136-160, 166-232; CamRadtan.h 127-147, 154-198 |
| `CeresModel.v` | DynamicInitializer.cpp 744-745; Factor_GenericPrior.cpp 28-92, 94-176; Factor_ImageReprojCalib.cpp 32-34, 38-43, 48-58, 60-103, 105-150; Factor_ImageReprojCalib.h 43-55; Factor_ImuCPIv1.cpp 26-61, 65-74, 107-123, 130-136, 150-207, 209-261; State_JPLQuatLocal.cpp 28-49, 52-57, 59-79 |
| `CfgModel.v` | CamBase.h 42-80; InertialInitializerOptions.h 55-59, 235-253, 260-327; StateOptions.h 118-119, 127, 141-157; VioManager.cpp 266-278; VioManagerOptions.h 62-71, 109-112, 184-216, 228-352, 354-362, 453-459; opencv_yaml_parse.h 103, 122-140, 158-178, 195-232, 242-275, 302-318, 336-540, 548-562, 580-618 |
| `CpiModel.v` | CpiBase.h 49-63, 96-141; CpiV1.cpp 32-315 |
| `DbModel.v` | Feature.cpp 26-53, 55-81, 83-109; Feature.h 39-71; FeatureDatabase.cpp 29-322; FeatureDatabase.h 166 |
| `DescModel.v` | TrackBase.cpp 30-42; TrackBase.h 176-192; TrackDescriptor.cpp 33-61, 63-174, 176-352, 354-402, 404-473, 475-532, 534-549, 551-575 |
| `DynModel.v` | DynamicInitializer.cpp 44-570; InertialInitializerOptions.h 64-110 |
| `ErrModel.v` | ResultTrajectory.cpp 111-138, 244-290, 292-400 |
| `EvalModel.v` | AlignTrajectory.cpp 26-55, 57-83, 93-98, 109-126, 138-143, 158-163; AlignUtils.cpp 26-93, 103-189; AlignUtils.h 53-58, 65-72; Loader.cpp 388-398; Loader.h 44-52; ResultTrajectory.cpp 26-108, 140-242; ResultTrajectory.h 169-198; Statistics.h 40-70, 73-121, 124-128 |
| `FastModel.v` | Propagator.cpp 33-138, 140-267; Propagator.h 51-96, 437-453 |
| `FeatModel.v` | FeatureInitializer.cpp 30-112, 114-195, 197-375, 377-422; FeatureInitializer.h 51-75; FeatureInitializerOptions.h 36-75 |
| `FileModel.v` | Loader.cpp 26-107, 109-177, 179-238, 240-319, 321-386; dataset_reader.h 62-105, 114-170, 177-235 |
| `GeoModel.v` | Landmark.cpp 89; quat_ops.h 67-632 |
| `GivensModel.v` | StateHelper.cpp 428-443; UpdaterHelper.cpp 426-487 |
| `GridModel.v` | Grider_FAST.h 57; Grider_GRID.h 74-178; TrackKLT.cpp 402-494 |
| `GtModel.v` | VioManagerHelper.cpp 40-62 |
| `HelpModel.v` | Landmark.cpp 38-42; State.h 150-165; UpdaterHelper.cpp 32-190, 192-425; UpdaterHelper.h 46-88 |
| `ImuModel.v` | InertialInitializer.cpp 55-77; Propagator.cpp 269-393; Propagator.h 65-74, 80-92, 154-164; UpdaterZeroVelocity.h 82-106; VioManager.cpp 166-176; helper.h 45-52, 66-126; sensor_data.h 33-51 |
| `InitModel.v` | DynamicInitializer.cpp 404-409; FeatureHelper.h 60-110, 127-177; InertialInitializerOptions.h 64-74; StaticInitializer.cpp 37-165; helper.h 138-171, 183-319 |
| `LandModel.v` | Landmark.cpp 26-144; Landmark.h 39-71; LandmarkRepresentation.h 38-46, 98-102 |
| `MleModel.v` | DynamicInitializer.cpp 111, 113-154, 560, 571-1100; Factor_GenericPrior.cpp 58-75; Factor_ImuCPIv1.cpp 50-61; InertialInitializerOptions.h 79-110 |
| `PropModel.v` | NoiseManager.h 34-68; Propagator.cpp 71-100, 103-113, 395-1030; Simulator.cpp 311-389; State.cpp 43-60; State.h 80-135, 141-192; StateOptions.h 48-55, 58-65; VioManagerOptions.h 306-351 |
| `ReachModel.v` | Propagator.cpp 33-138, 478-479; StateHelper.cpp 36-645; StateHelper.h 76-230; Type.h 57-67; UpdaterSLAM.cpp 234; VioManager.cpp 73-97, 323-596; VioManagerHelper.cpp 43-44 |
| `RetriModel.v` | Landmark.h 39-118; VioManager.cpp 555-558; VioManager.h 237-243; VioManagerHelper.cpp 190-387 |
| `RosModel.v` | ROS1Visualizer.cpp 438-589; ROS1Visualizer.h 179-183; sensor_data.h 55-80 |
| `SelModel.v` | Landmark.h 49-64; StateOptions.h 71-77; UpdaterSLAM.cpp 214, 415; VioManager.cpp 256-600; VioManager.h 183-230; VioManagerOptions.h 80; sensor_data.h 55-80 |
| `ShowModel.v` | VioManagerHelper.cpp 417-463 |
| `SimFileModel.v` | ROSVisualizerHelper.cpp 165-232, 239-401; ResultSimulation.cpp 26-40, 42-106, 204-231, 280-328, 390-445, 502-586 |
| `SimModel.v` | Simulator.cpp 64-66, 110-121, 267-546; Simulator.h 148, 150-205; run_simulation.cpp 146-181 |
| `SimsModel.v` | CamBase.h 42-80, 175-190; Simulator.cpp 36-265, 421, 441-445, 453-470, 501-513, 518-532; Simulator.h 148, 193-196; StateOptions.h 40-90; VioManagerOptions.h 108-330 |
| `StartModel.v` | InertialInitializer.cpp 79-159; InertialInitializerOptions.h 64-76; VioManager.h 226; VioManagerHelper.cpp 78-188 |
| `StateModel.v` | Propagator.cpp 122; State.cpp 30-166; State.h 66-75, 140-200; StateHelper.cpp 36-645; StateOptions.h 32-90; Type.h 57-67; VioManagerHelper.cpp 62 |
| `TrackModel.v` | TrackAruco.cpp 126-149; TrackBase.cpp 30-42, 230-247; TrackBase.h 176-192; TrackKLT.cpp 34-93, 95-200, 202-393, 395-528, 530-827, 829-886; TrackSIM.cpp 30-79; sensor_data.h 55-80 |
| `TypesModel.v` | IMU.h 37-232; JPLQuat.h 92-188; Landmark.h 40-89; PoseJPL.h 37-187; Type.h 37-130; Vec.h 32-80 |
| `UpdModel.v` | State.h 153; Type.h 57-67; UpdaterMSCKF.cpp 58-295; UpdaterSLAM.cpp 61-479 |
| `ZuptModel.v` | UpdaterZeroVelocity.cpp 65-329; UpdaterZeroVelocity.h 118-140, 145-156; VioManager.cpp 256-321, 323-360; VioManager.h 219, 229-230 |
<!-- coverage end -->

Not modelled (no theorem says anything about them):

* ROS glue beyond the image/IMU queues (message conversion, publishing, visualisation), the settings of the `*Options.h`
  print/load functions that are not about calibration (C104 models the parser and those that are), printing, plotting, `matplotlibcpp.h`, the evaluation
  executables (only the alignment, association and error computations behind them are modelled).
* OpenCV calls (optical flow, corner extraction, undistortion, RANSAC): their outputs are arbitrary arguments.
* `Grider_FAST` (an argument of the descriptor tracker), `CamBase::undistort_*`.
* `ov_init`: the Ceres solver and covariance estimation themselves (results are arguments of C93); `CpiV2`.
* Threads and locks: every modelled function runs alone; the only concurrency modelled is the order in which the queues
  are filled and drained.
* Random numbers of the simulator are arbitrary arguments.
* Floating point rounding, NaN and infinities (section 2).
