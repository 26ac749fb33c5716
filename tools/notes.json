{
 "C26": {
  "status": "proved",
  "note": "All unit quaternions; exact reals."
 },
 "C27": {
  "status": "proved",
  "note": "All rotation matrices, all four branches."
 },
 "C28": {
  "status": "proved",
  "note": "Branch thresholds exactly as in the code; small-angle and Taylor branches stated exactly; round trip refuted strictly between pi-1e-5 and pi (C28_exp_log_near_pi_refuted)."
 },
 "C29": {
  "status": "proved",
  "note": "Rigid transforms as (R,p) pairs; small-angle branch excluded."
 },
 "C30": {
  "status": "proved",
  "note": "Away from gimbal lock and at pitch +90; refuted at pitch -90 degrees (C30_rpy_gimbal_down_refuted)."
 },
 "C01": {
  "status": "proved",
  "note": "For all states reachable from the constructor by respected calls, and for any returning call with arbitrary numerical arguments."
 },
 "C02": {
  "status": "proved",
  "note": "All positions of the removed variable; joint covariance of every list of survivors; Exit when not top level."
 },
 "C03": {
  "status": "proved",
  "note": "Top-level variables and sub-variables; Exit otherwise."
 },
 "C04": {
  "status": "proved",
  "note": "Both option values; second clone at the same time exits."
 },
 "C05": {
  "status": "proved",
  "note": "Any order and multiplicity of old variables; Q is read through its upper triangle as in the code; Exit branches."
 },
 "C06": {
  "status": "proved",
  "note": "S is symmetric positive definite so K is the unique solution of K S = P H^T; every variable moved by its own block; camera objects refreshed."
 },
 "C07": {
  "status": "proved",
  "note": "Induction over all respected calls; progress shows the negative-diagonal exits are unreachable (exact arithmetic)."
 },
 "C08": {
  "status": "proved",
  "note": "The threshold uses all rows of the measurement (chi2q r), not the r-k rows tested: recorded as in the code."
 },
 "C09": {
  "status": "proved",
  "note": "Exact joint covariance for every invertible H_L and isotropic noise."
 },
 "C10": {
  "status": "proved",
  "note": "All option values and camera counts."
 },
 "C11": {
  "status": "proved",
  "note": "Any list of variables, repetitions allowed."
 },
 "C12": {
  "status": "proved",
  "note": "Histories of camera frames with arbitrary respected updates between propagation and marginalization; max_clone_size >= 1."
 },
 "C13": {
  "status": "proved",
  "note": "Any set of landmarks; also shows the call returns on reachable states."
 },
 "C14": {
  "status": "proved",
  "note": "Givens loops of the code for all sizes; N spans exactly the left null space when H_f has full column rank."
 },
 "C15": {
  "status": "proved",
  "note": "Includes equality of the posterior state of EKFUpdate with compressed and uncompressed measurements."
 },
 "C31": {
  "status": "proved",
  "note": "Rotation update is the exact Cayley rotation, first order I - [d]x; all variable classes."
 },
 "C52": {
  "status": "proved",
  "note": "Frame-level model of do_feature_propagate_update with zero-velocity updates disabled; IMU messages do not touch the state."
 },
 "C19": {
  "status": "proved",
  "note": "Every database reachable by any sequence of the modelled FeatureDatabase and Feature operations, any number of features, cameras and measurements."
 },
 "C20": {
  "status": "proved",
  "note": "Exact selection for databases whose tracks are in time order; C20_fed_in_order shows in-order feeding gives such databases; C20_unordered_refuted shows the newer-than query is wrong otherwise."
 },
 "C21": {
  "status": "proved",
  "note": "All databases, all time lists and thresholds."
 },
 "C22": {
  "status": "proved",
  "note": "Union of measurements for every pair of databases. Two stronger readings are refuted: time order is not preserved, and duplicates inside the source database are copied."
 },
 "C63": {
  "status": "proved",
  "note": "get_oldest_timestamp for tracks in time order; get_feature and get_feature_clone for all databases."
 },
 "C16": {
  "status": "proved",
  "note": "For every reachable state, database, feature list and every linearization of the right shape (jac_ok): the update returns, no write leaves the allocated blocks, and the state is that of one EKF update with the exact stack of the accepted systems."
 },
 "C17": {
  "status": "proved",
  "note": "All three updaters, every accept or reject outcome. SLAM features with fewer measurements than required are kept, as in the code; C17_slam_features states exactly which."
 },
 "C23": {
  "status": "proved",
  "note": "The initializer's own copy (helper.h) is refuted: it stops before t1 when the last reading is exactly at t1. Early data: the last reading is replaced by an extrapolation."
 },
 "C24": {
  "status": "proved",
  "note": "The part about later propagations needs offset >= -0.10 s; refuted otherwise (camera time compared with IMU times)."
 },
 "C25": {
  "status": "proved",
  "note": "equal timestamps excluded (division by zero)"
 },
 "C41": {
  "status": "proved",
  "note": "exact real arithmetic; zero vector is the only undefined input (proved)"
 },
 "C42": {
  "status": "proved",
  "note": "acceptance is characterised in both directions"
 },
 "C43": {
  "status": "proved",
  "note": "eigenvalue solver itself is external"
 },
 "C44": {
  "status": "proved",
  "note": "the failure report (-1) is false of the code: C44_failure_report_refuted (no match gives mean 0/0, one match deviation 0/0); everything else for every database"
 },
 "C48": {
  "status": "proved",
  "note": "extra: the nearest-neighbour reading fails when an entry lies exactly at the tolerance (C48_nearest_at_tolerance_refuted)"
 },
 "C49": {
  "status": "proved",
  "note": "all numbers characterised; the repeated-call part of the statement is false of the code: C49_second_call_refuted (rmse is never reset)"
 },
 "C50": {
  "status": "proved",
  "note": "the SVD is an arbitrary oracle here (its result is not used with yaw_only)"
 },
 "C51": {
  "status": "proved",
  "note": "every list, first nearest index within tolerance or none"
 },
 "C66": {
  "status": "proved",
  "note": "hypothesis: contract of the SVD of the correlation matrix at hand"
 },
 "C67": {
  "status": "proved",
  "note": "frame independence is stated for the position part"
 },
 "C45": {
  "status": "proved",
  "note": "KLT and simulated tracker proved for all runs; for TrackAruco distinctness is proved for tag ids below max_tag_id and refuted (C45_aruco_ids_refuted) for the tag id equal to it, which the code lets through. TrackDescriptor is not modelled."
 },
 "C46": {
  "status": "proved",
  "note": "Proved for an unused new id as the statement says; C46_rename_collision_refuted shows the loss for a used one."
 },
 "C47": {
  "status": "proved",
  "note": "One point per min_px_dist cell (as stated); the stronger pairwise distance reading is refuted. Grider_GRID itself is an argument. The left loop of the stereo case is the same function; for the right image only id uniqueness (C45) is proved."
 },
 "C68": {
  "status": "proved",
  "note": "Proved for every reachable state. For stereo frames the inside-image/off-mask part is refuted (C68_stereo_inside_refuted): line 308 uses > and there is no mask check."
 },
 "C55": {
  "status": "proved",
  "note": "The QR solve of the simulator is a quantified exact inverse."
 },
 "C56": {
  "status": "proved",
  "note": ""
 },
 "C59": {
  "status": "proved",
  "note": "Refuted in general by C59_transition_refuted (missing Dw factor); proved whenever that factor makes no difference. Rates where the series switches of exp/log are active are excluded (regular_rate)."
 },
 "C62": {
  "status": "proved",
  "note": "Refuted for the RPNG model; proved for KALIBR."
 },
 "C69": {
  "status": "proved",
  "note": "Below the small-rate switch the statement is refuted (C69_slow_refuted)."
 },
 "C70": {
  "status": "proved",
  "note": "For rates above the small-rate switch and without an active first-estimate substitution."
 },
 "C71": {
  "status": "proved",
  "note": ""
 },
 "C72": {
  "status": "proved",
  "note": "the step is identified with the textbook method for every rate; exactness is proved without rotation, no error bound is stated for rotating motion"
 },
 "C54": {
  "status": "proved",
  "note": ""
 },
 "C73": {
  "status": "proved",
  "note": "Frames stamped exactly -1 are excluded (refuted by C73_minus_one_refuted)."
 },
 "C74": {
  "status": "proved",
  "note": ""
 },
 "C57": {
  "status": "proved",
  "note": "the English claim (one stream) is proved for all interleavings; with three or more cameras global order is false: C57_multi_order_refuted; the multi-threaded mode is not modelled"
 },
 "C32": {
  "status": "proved",
  "note": ""
 },
 "C33": {
  "status": "proved",
  "note": "The \"everywhere\" reading is refuted on the optical axis (C33_everywhere_refuted), as the statement says."
 },
 "C34": {
  "status": "proved",
  "note": "The first-estimate round trip is refuted for ANCHORED_MSCKF_INVERSE_DEPTH and ANCHORED_INVERSE_DEPTH_SINGLE (C34_fej_refuted); proved for the other four."
 },
 "C35": {
  "status": "proved",
  "note": "Proved for the canonical parameters of the point; refuted for stored full-inverse-depth parameters outside the canonical chart (C35_stored_refuted)."
 },
 "C36": {
  "status": "proved",
  "note": ""
 },
 "C75": {
  "status": "proved",
  "note": "Independence of the direction from the current estimates holds only in first-estimate mode (C75_current_refuted)."
 },
 "C37": {
  "status": "proved",
  "note": "Eigen's QR solver enters as any function that solves nonsingular systems; singular values as any function."
 },
 "C38": {
  "status": "proved",
  "note": "Refuted outside the stated range: with init_lamda = 0 the loop may never end."
 },
 "C58": {
  "status": "proved",
  "note": "Non-interference, replay and agreement with the filter's discrete prediction proved for every call sequence. The covariance agreement holds under ideal intrinsics / FEJ not in force (C58_answer); C58_intrinsics_refuted, C58_backwards_refuted and C58_local_velocity_refuted give the cases where the reported covariance is wrong."
 },
 "C53": {
  "status": "proved",
  "note": "the stronger reading 'the clock never goes back' is refuted (C53_old_image_moves_clock_back_refuted), as is exactness of the Jacobian for calibrated sensors"
 },
 "C76": {
  "status": "proved",
  "note": "hypothesis 'images not older than the state' is needed: C76_past_image_exit_refuted"
 },
 "C18": {
  "status": "proved",
  "note": "max_clone_size >= 1 is assumed by `passes`; triangulation and Jacobian values inside delayed_init are arguments, constrained only by `sallowed`"
 },
 "C60": {
  "status": "proved",
  "note": "first-estimate half is false for ANCHORED_MSCKF_INVERSE_DEPTH (refuted); colPivHouseholderQr().solve is the exact inverse"
 },
 "C61": {
  "status": "proved",
  "note": "listings total on states with live anchors (C18); ids <= 4*max_aruco are tags"
 },
 "C39": {
  "status": "proved",
  "note": "the exact claim fails inside the small-angle switch just after a knot (C39_velocity_near_refuted); there the velocity error is bounded, angular rate and acceleration are not treated"
 },
 "C40": {
  "status": "proved",
  "note": "finding: the last line of the trajectory file is dropped (C40_last_pose_ignored)"
 },
 "C64": {
  "status": "proved",
  "note": "partial correctness: for every run that returns; hypothesis: no single-inverse-depth landmarks"
 },
 "C77": {
  "status": "proved",
  "note": "partial correctness: for every run that returns"
 },
 "C79": {
  "status": "proved",
  "note": "Messages that end in a zero-velocity update or have too few clones are the stated alternative no_update. Single inverse-depth landmarks are excluded by hypothesis."
 },
 "C80": {
  "status": "proved",
  "note": "The count of failures is never reset by a success, contrary to the code comment; stated as C80_failures_accumulate."
 },
 "C78": {
  "status": "proved",
  "note": "The sentence \"every corner of a tag gets the noise of tags\" is refuted (C78_tag_noise_refuted); C78_corner_options says exactly which corner gets which options."
 },
 "C65": {
  "status": "proved",
  "note": "The dynamic initializer is an argument. C65_never_without_threshold contradicts the comment at InertialInitializer.cpp 106: with init_max_disparity <= 0 and wait_for_jerk no initializer runs."
 },
 "C81": {
  "status": "proved",
  "note": "Atomicity: the final section of the thread holds the queue lock and is one event; atomics are sequentially consistent. The propagated mean and covariance are the quantified propagation inputs of the state model."
 },
 "C82": {
  "status": "proved",
  "note": "C82_slow_refuted: for a rate between 0 and the threshold the truncated series stored in R is not orthogonal."
 },
 "C83": {
  "status": "proved",
  "note": "Rates exactly at or below the threshold (other than zero) are excluded: there the coded coefficients jump."
 },
 "C84": {
  "status": "proved",
  "note": "Ceres refinement (571-1100) is C92 and C93; with two readings the assert of line 178 fails (C84_few_readings_refuted)"
 },
 "C85": {
  "status": "proved",
  "note": ""
 },
 "C86": {
  "status": "proved",
  "note": "for an eigenvalue with D - lambda I not positive definite only stationarity data are shown (gravity within 1e-3); llt of an indefinite matrix is left to the contract of ya_inv3"
 },
 "C87": {
  "status": "proved",
  "note": "holds for every oracle, hence also for inexact solves; features are checked against the first pose only, as in the code"
 },
 "C88": {
  "status": "proved",
  "note": "Two literal readings are refuted: Minus loses turns below 1e-8, and PlusJacobian is not the derivative of the quaternion values."
 },
 "C89": {
  "status": "proved",
  "note": "`regular`: the point is not in the camera plane, and off the optical axis by 1e-8 for the fisheye model, as in C33."
 },
 "C90": {
  "status": "proved",
  "note": "Derivative claim needs the gyroscope bias at its linearization point and turns below a quarter turn; both conditions are shown necessary by C90_far_bias_refuted and C90_half_turn_refuted."
 },
 "C91": {
  "status": "proved",
  "note": "Rotation blocks at the linearization point or with a logarithm inside the exact branch (not within 1e-7 in trace of it). C91_gradient_refuted: documentation says A^T b = grad."
 },
 "C92": {
  "status": "proved",
  "note": "Eigen factorizations are oracles whose success is a hypothesis (priors_ok, spans_ok); ceres::Solve itself is not modelled. Cameras are those of observations at pose times (one direction)."
 },
 "C93": {
  "status": "proved",
  "note": "Ceres solver result, convergence flag and covariance blocks are arguments. Clones of earlier calls still in the map are left out."
 },
 "C94": {
  "status": "proved",
  "note": "Linear solve and singular values are oracles with a contract (solves, sv_ok). Stereo reading refuted."
 },
 "C95": {
  "status": "proved",
  "note": "The early return on a message without a clone is outside (the caller adds the clone)."
 },
 "C96": {
  "status": "proved",
  "note": "The values 0.017, 0.05, 0.01, 0.02, 0.02 are read from the source."
 },
 "C97": {
  "status": "proved",
  "note": "Sub-pixel refinement may move points anywhere; the claims on position are before it. One sub-reading refuted (masked corners use up places)."
 },
 "C98": {
  "status": "proved",
  "note": "Monocular call; the two stereo calls have the same text. Refuted for fewer features than cells and for zero features."
 },
 "C99": {
  "status": "proved",
  "note": "Grider_FAST (same scheme as Grider_GRID, C97) is part of the extraction argument. Four sub-readings refuted: mixing single images with pairs, spacing of stereo detections, a larger right image, recording of the first image."
 },
 "C100": {
  "status": "proved",
  "note": "Reading the trajectory file (DatasetReader) is not modelled."
 },
 "C101": {
  "status": "proved",
  "note": "Distortion and undistortion are assumed inverse to each other on the image for C101_enough. Two wider readings refuted: frames between the synthetic ones, first camera unchanged by a second one."
 },
 "C102": {
  "status": "proved",
  "note": "Camera objects of different cameras are assumed distinct (as the parser makes them). Independent noise of the cameras refuted."
 },
 "C103": {
  "status": "proved",
  "note": "Order two (four without rotation) of one step of constant rate and force. Semidefiniteness refuted for a step of one second with the default noises."
 },
 "C104": {
  "status": "proved",
  "note": "Of the settings, those that decide about calibration are modelled; ROS overrides as under ROS 1. Three readings refuted."
 },
 "C105": {
  "status": "proved",
  "note": "The mask size reading is refuted: with downsampling a mask that passes the load check is halved again before tracking."
 },
 "C106": {
  "status": "proved",
  "note": "Non-triangular scale matrices refuted."
 },
 "C107": {
  "status": "proved",
  "note": "Sizes of zero and below are accepted by the options and refuted."
 },
 "C108": {
  "status": "proved",
  "note": "An empty line in a timing file is read out of range (refuted)."
 },
 "C109": {
  "status": "proved",
  "note": "The documented exit for files in the wrong format holds for long lines only (refuted for short ones)."
 },
 "C110": {
  "status": "proved",
  "note": "A half turn and singular covariances are excluded from the normalized errors; the angle reading of the axis errors is refuted."
 },
 "C111": {
  "status": "proved",
  "note": "C111_turn is about unit quaternions; for quaternions rounded to six digits the theorems name the value through log_so3. The fourth deviation of an IMU rotation is refuted."
 },
 "C112": {
  "status": "proved",
  "note": "Changes between propagations must keep the time of the state; for a zero velocity update, which does not, the claim is refuted. In that refutation the update is represented only by its effect on the time of the state; that it used the readings up to its own new offset is read off UpdaterZeroVelocity.cpp 94."
 }
}