{
 "C05": {
  "status": "proved",
  "note": "Proved as stated. The theorems ending in _defect prove the defect named in the statement."
 },
 "C07": {
  "status": "proved",
  "note": "Proved as stated. The theorems ending in _defect prove the defect named in the statement."
 },
 "C08": {
  "status": "proved",
  "note": "Proved as stated. The theorems ending in _defect prove the defect named in the statement."
 },
 "C65": {
  "status": "proved",
  "note": "Proved as stated. The theorems ending in _defect prove the defect named in the statement."
 },
 "C79": {
  "status": "proved",
  "note": "Proved including the defects: f_nll_stouc answers Inf whenever det S < 1 (C79_small_determinant_defect), and accepts an indefinite S with an even number of negative eigenvalues (C79_indefinite_accepted_defect)."
 },
 "C11": {
  "status": "proved",
  "note": "Proved as stated. The theorems ending in _defect prove the defect named in the statement."
 },
 "C16": {
  "status": "proved",
  "note": "Proved as stated. The theorems ending in _defect prove the defect named in the statement."
 },
 "C17": {
  "status": "proved",
  "note": "Proved as stated. The theorems ending in _defect prove the defect named in the statement."
 },
 "C18": {
  "status": "proved",
  "note": "Proved as stated. The theorems ending in _defect prove the defect named in the statement."
 },
 "C20": {
  "status": "proved",
  "note": "Proved as stated. The theorems ending in _defect prove the defect named in the statement."
 },
 "C25": {
  "status": "proved",
  "note": "Proved as stated. The theorems ending in _defect prove the defect named in the statement."
 },
 "C26": {
  "status": "proved",
  "note": "Proved as stated. The theorems ending in _defect prove the defects named in the statement."
 },
 "C27": {
  "status": "proved",
  "note": "Proved as stated. The theorems ending in _defect prove the defect named in the statement."
 },
 "C28": {
  "status": "proved",
  "note": "Proved as stated. The theorems ending in _defect prove the defect named in the statement."
 },
 "C29": {
  "status": "proved",
  "note": "Proved as stated. The theorems ending in _defect prove the defect named in the statement."
 },
 "C30": {
  "status": "proved",
  "note": "Proved as stated. The theorems ending in _defect prove the defect named in the statement."
 },
 "C34": {
  "status": "proved",
  "note": "Proved as stated. The theorems ending in _defect prove the defect named in the statement."
 },
 "C35": {
  "status": "proved",
  "note": "Proved as stated. The theorems ending in _defect prove the defects named in the statement."
 },
 "C36": {
  "status": "proved",
  "note": "Proved as stated. The theorems ending in _defect prove the defect named in the statement."
 },
 "C41": {
  "status": "proved",
  "note": "Proved as stated. The theorems ending in _defect prove the defect named in the statement."
 },
 "C42": {
  "status": "proved",
  "note": "Proved as stated. The theorems ending in _defect prove the limitation named in the statement."
 },
 "C43": {
  "status": "proved",
  "note": "Proved as stated. The theorems ending in _defect prove the defect named in the statement."
 },
 "C45": {
  "status": "proved",
  "note": "Proved as stated. The theorems ending in _defect prove the defect named in the statement."
 },
 "C46": {
  "status": "proved",
  "note": "Proved as stated. The theorems ending in _defect prove the defect named in the statement."
 },
 "C50": {
  "status": "proved",
  "note": "Proved as stated. The theorems ending in _defect prove the defect named in the statement."
 },
 "C51": {
  "status": "proved",
  "note": "Proved as stated. The theorems ending in _defect prove the defect named in the statement."
 },
 "C54": {
  "status": "proved",
  "note": "Proved as stated. The theorems ending in _defect prove the defect named in the statement."
 },
 "C55": {
  "status": "proved",
  "note": "Proved as stated. The theorems ending in _defect prove the defect named in the statement."
 },
 "C62": {
  "status": "proved",
  "note": "Proved as stated. The theorems ending in _defect prove the defects named in the statement."
 },
 "C63": {
  "status": "proved",
  "note": "Proved as stated. The theorems ending in _defect prove the defect named in the statement."
 },
 "C68": {
  "status": "proved",
  "note": "Proved as stated. The theorems ending in _defect prove the defect named in the statement."
 },
 "C71": {
  "status": "proved",
  "note": "Proved as stated. The theorems ending in _defect prove the defect named in the statement."
 },
 "C73": {
  "status": "proved",
  "note": "Proved as stated. The theorems ending in _defect prove the defect named in the statement."
 },
 "C74": {
  "status": "proved",
  "note": "Proved as stated. The theorems ending in _defect prove the defects named in the statement."
 },
 "C76": {
  "status": "proved",
  "note": "Proved as stated. The theorems ending in _defect prove the defects named in the statement."
 },
 "C80": {
  "status": "proved",
  "note": "Proved as stated. The theorems ending in _defect prove the defects named in the statement."
 },
 "C81": {
  "status": "proved",
  "note": "Proved as stated. The theorems ending in _defect prove the defects named in the statement."
 },
 "C82": {
  "status": "proved",
  "note": "Proved as stated. The theorems ending in _defect prove the defects named in the statement."
 },
 "C87": {
  "status": "proved",
  "note": "Proved as stated."
 },
 "C88": {
  "status": "proved",
  "note": "Proved as stated."
 },
 "C89": {
  "status": "proved",
  "note": "Proved as stated."
 },
 "C90": {
  "status": "proved",
  "note": "Proved as stated."
 },
 "C91": {
  "status": "proved",
  "note": "Proved as stated."
 },
 "C92": {
  "status": "proved",
  "note": "Proved as stated."
 },
 "C67": {
  "status": "proved",
  "note": "C67_aml_noiseless_defect is the deviation stated after \"Defect:\" in the property."
 },
 "C93": {
  "status": "proved",
  "note": "C93_origin_defect is the deviation stated after \"Defect:\" in the property."
 },
 "C94": {
  "status": "proved",
  "note": "C94_music, C94_min_norm, C94_bartlett, C94_mvdr state the invariance under changes of coordinates; C94_scale_and_loading and C94_same_sensors are the special cases in user terms; C94_gap_needed is the limitation."
 },
 "C95": {
  "status": "proved",
  "note": "C95_more_sensors(_defined), C95_better_conditions_det/_sto, C95_ratio_det/_sto, C95_more_sources; C95_example has two against three sensors and one against two sources."
 },
 "C96": {
  "status": "proved",
  "note": "C96_root_music, C96_esprit, C96_esprit_exact (the conditions hold), C96_aic_mdl, C96_sorte, C96_spatial_smoothing, C96_virtual_array; examples compare ex_R with 3 ex_R + 5 I and with swapped sensors."
 },
 "C97": {
  "status": "proved",
  "note": "C97_objective, C97_same_minimisers, C97_cml_noise_floor, C97_estimate, C97_same_sensors, C97_source_order, C97_likelihood; P_pinv builds a total pseudo-inverse that meets the contract used. The Defect is C79_small_determinant_defect; C97_likelihood says where the value is finite."
 },
 "C98": {
  "status": "proved",
  "note": "C98_matching, C98_unique, C98_problem, C98_scm_estimate, C98_group_problem, C98_group_estimate, C98_same_sensors; examples C98_example (two sensors, exact covariance) and C98_group_example."
 },
 "C99": {
  "status": "proved",
  "note": "C99_eigenvalues, C99_noise_subspace, C99_music_threshold and C99_music_recovery are quantitative; the C99_*_order and C99_*_on_ula theorems give an eps0 depending only on the scene, grid and array; C99_example and C99_threshold_example meet the hypotheses with a covariance that is not exact."
 },
 "C100": {
  "status": "proved",
  "note": "C100_aic_inconsistent is the stated limitation (a property of the criterion as implemented); C100_example, C100_budget_example and C100_sorte_example meet the hypotheses."
 },
 "C101": {
  "status": "proved",
  "note": "C101_endfire is the stated limitation; C101_example meets the hypotheses."
 },
 "C102": {
  "status": "proved",
  "note": "Limitation: matrices with an exact null on the circle are excluded (C62 defect). C102_example meets the hypotheses, with solvers that meet the contracts."
 },
 "C103": {
  "status": "proved",
  "note": "C103_example and C103_coarray_example (five sources, four sensors) meet the hypotheses with a concrete record."
 },
 "C104": {
  "status": "proved",
  "note": "C104_example: a two-sensor array and a covariance matrix that differs from its backward version; C104_esprit_example."
 },
 "C105": {
  "status": "proved",
  "note": "Proved as stated. C105_aml_ambiguous_defect proves the limitation. C105_example (three sensors, perturbed covariance, all three estimators) and C105_ambiguous_example meet the hypotheses."
 },
 "C106": {
  "status": "proved",
  "note": "Proved as stated (with refinement: C107). C106_example: two sensors, a source at 30 degrees that is on no grid point, a perturbed covariance, error below 1/100 degree."
 },
 "C107": {
  "status": "proved",
  "note": "Proved as stated. Grids of floats: on integer grids the refined locations are truncated (C50). C107_example: two sensors, a source at 30 degrees that is on no grid point, a perturbed covariance, error below one millionth of a degree."
 },
 "C108": {
  "status": "proved",
  "note": "Proved as stated. C108_example: two sensors, a source at 30 degrees that is on no grid point, a perturbed covariance; all three estimators get within one millionth of a degree."
 },
 "C109": {
  "status": "proved",
  "note": "Proved as stated. Expectation is any linear functional with the moments of independent draws up to order four; `unlikely` is the Markov bound by a polynomial in the draws, so the statements hold for the true expectation of normal draws. C109_example and C109_coarray_example take random signs as draws, for which the expectation is a finite mean, and conclude that draws exist for which refined MUSIC (a source between the grid points) and, on a nested array with 4 sensors and 5 sources, MDL and ESPRIT (C109_coarray_music_example: refined MUSIC and Min-Norm) succeed."
 },
 "C110": {
  "status": "proved",
  "note": "Proved as stated. C110_example takes two fully coherent sources on a four-sensor array and random signs as draws: MDL on the sample covariance counts one source, MDL on the smoothed one counts two and ESPRIT finds both."
 },
 "C111": {
  "status": "proved",
  "note": "Proved as stated. C111_example: on three points one source inside is found, one at an end is not, and two sources are not."
 }
}