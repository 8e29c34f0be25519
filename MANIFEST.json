{
 "claims": [
  {
   "property": "C01",
   "status": "proved",
   "theorems": [
    "c01_trans",
    "c01_trans_twice",
    "c01_trans_elements"
   ],
   "note": "In PropStruct.v."
  },
  {
   "property": "C02",
   "status": "proved",
   "theorems": [
    "c02_fill",
    "c02_zeros",
    "c02_ones",
    "c02_eye",
    "c02_eye_default"
   ],
   "note": "In PropStruct.v."
  },
  {
   "property": "C03",
   "status": "proved",
   "theorems": [
    "c03_ones2",
    "c03_ones2_shape"
   ],
   "note": "In PropStruct.v."
  },
  {
   "property": "C04",
   "status": "proved",
   "theorems": [
    "c04_vertical",
    "c04_horizontal",
    "c04_squareV",
    "c04_squareH"
   ],
   "note": "In PropStruct.v."
  },
  {
   "property": "C05",
   "status": "proved",
   "theorems": [
    "c05_concatenate_square",
    "c05_second_documented_iff",
    "c05_documented_refuted"
   ],
   "note": "In PropStruct.v."
  },
  {
   "property": "C06",
   "status": "proved",
   "theorems": [
    "c06_swap_rows",
    "c06_swap_rows_twice",
    "c06_swap_rows_same",
    "c06_swap_rows_out_of_range",
    "c06_swap_cols",
    "c06_swap_cols_twice",
    "c06_swap_cols_same",
    "c06_swap_cols_out_of_range"
   ],
   "note": "In PropStruct.v."
  },
  {
   "property": "C07",
   "status": "proved",
   "theorems": [
    "c07_getminor",
    "c07_getminor_out_of_range",
    "c07_documented_refuted"
   ],
   "note": "In PropStruct.v."
  },
  {
   "property": "C08",
   "status": "proved",
   "theorems": [
    "c08_element_types",
    "c08_arithmetic",
    "c08_rearrangement",
    "c08_square",
    "c08_statistics",
    "c08_convolution"
   ],
   "note": "In PropStruct.v."
  },
  {
   "property": "C09",
   "status": "proved",
   "theorems": [
    "c09_increment",
    "c09_decrement"
   ],
   "note": "In PropStruct.v."
  },
  {
   "property": "C10",
   "status": "proved",
   "theorems": [
    "c10_sum",
    "c10_sub",
    "c10_sum_scalar",
    "c10_sub_scalar",
    "c10_sum_comm",
    "c10_sum_assoc",
    "c10_zeros",
    "c10_add_sub",
    "c10_sub_self",
    "c10_scalar_add_sub",
    "c10_operator"
   ],
   "note": "In PropAlg.v."
  },
  {
   "property": "C11",
   "status": "proved",
   "theorems": [
    "c11_scalar_plus",
    "c11_scalar_mult",
    "c11_elementwise"
   ],
   "note": "In PropStruct.v."
  },
  {
   "property": "C12",
   "status": "proved",
   "theorems": [
    "c12_mult",
    "c12_mult_scalar",
    "c12_operator"
   ],
   "note": "In PropAlg.v."
  },
  {
   "property": "C13",
   "status": "proved",
   "theorems": [
    "c13_assoc",
    "c13_distr_r",
    "c13_distr_l",
    "c13_eye",
    "c13_zeros",
    "c13_zeros_r",
    "c13_scale",
    "c13_trans"
   ],
   "note": "In PropAlg.v."
  },
  {
   "property": "C14",
   "status": "proved",
   "theorems": [
    "c14_strassen_exact",
    "c14_strassen_unsigned",
    "c14_strassen_signed",
    "c14_strassen_overflows",
    "c14_strassen_float"
   ],
   "note": "In PropAlg.v, PropInt.v."
  },
  {
   "property": "C15",
   "status": "proved",
   "theorems": [
    "c15_sum",
    "c15_sub",
    "c15_sum_scalar",
    "c15_sub_scalar",
    "c15_mult_scalar",
    "c15_mult",
    "c15_strassen",
    "c15_det",
    "c15_conv2",
    "c15_pow"
   ],
   "note": "In PropInt.v."
  },
  {
   "property": "C16",
   "status": "proved",
   "theorems": [
    "c16_sum",
    "c16_sum_returns",
    "c16_sub",
    "c16_sub_returns",
    "c16_mult_scalar",
    "c16_mult",
    "c16_strassen",
    "c16_pow",
    "c16_det",
    "c16_conv2",
    "c16_mult_bound"
   ],
   "note": "In PropInt.v."
  },
  {
   "property": "C17",
   "status": "proved",
   "theorems": [
    "c17_sum",
    "c17_sub",
    "c17_mult_undefined",
    "c17_mult_other"
   ],
   "note": "In PropInt.v."
  },
  {
   "property": "C18",
   "status": "proved",
   "theorems": [
    "c18_div",
    "c18_div_mult",
    "c18_div_zero",
    "c18_operator"
   ],
   "note": "In PropAlg.v."
  },
  {
   "property": "C19",
   "status": "proved",
   "theorems": [
    "c19_det",
    "c19_singular"
   ],
   "note": "In PropAlg.v."
  },
  {
   "property": "C20",
   "status": "proved",
   "theorems": [
    "c20_mult",
    "c20_trans",
    "c20_eye",
    "c20_swap_rows",
    "c20_swap_cols",
    "c20_scale"
   ],
   "note": "In PropAlg.v."
  },
  {
   "property": "C21",
   "status": "proved",
   "theorems": [
    "c21_exact3",
    "c21_wrong4",
    "c21_wrong",
    "c21_wrong_zero",
    "c21_wrong_nonzero",
    "c21_triangular"
   ],
   "note": "In PropInt.v, PropIntDet.v."
  },
  {
   "property": "C22",
   "status": "proved",
   "theorems": [
    "c22_inv",
    "c22_inv_matrix"
   ],
   "note": "In PropAlg.v."
  },
  {
   "property": "C23",
   "status": "proved",
   "theorems": [
    "c23_singular",
    "c23_never_returns"
   ],
   "note": "In PropAlg.v."
  },
  {
   "property": "C24",
   "status": "proved",
   "theorems": [
    "c24_inv_inv",
    "c24_inv_mult",
    "c24_inv_trans",
    "c24_det_inv",
    "c24_inv_eye"
   ],
   "note": "In PropAlg.v."
  },
  {
   "property": "C25",
   "status": "proved",
   "theorems": [
    "c25_pow",
    "c25_pow_neg",
    "c25_pow_neg_singular",
    "c25_pow_add"
   ],
   "note": "In PropAlg.v."
  },
  {
   "property": "C26",
   "status": "proved",
   "theorems": [
    "c26_narrow_least",
    "c26_small",
    "c26_least"
   ],
   "note": "In PropAlg.v."
  },
  {
   "property": "C27",
   "status": "proved",
   "theorems": [
    "c27_lu"
   ],
   "note": "In PropAlg.v."
  },
  {
   "property": "C28",
   "status": "proved",
   "theorems": [
    "c28_lu_returns_iff",
    "c28_lu_otherwise",
    "c28_lu_throws_on_factorable"
   ],
   "note": "In PropAlg.v."
  },
  {
   "property": "C29",
   "status": "proved",
   "theorems": [
    "c29_lu_det"
   ],
   "note": "In PropAlg.v."
  },
  {
   "property": "C30",
   "status": "proved",
   "theorems": [
    "c30_chol",
    "c30_unique"
   ],
   "note": "In PropAlg.v."
  },
  {
   "property": "C31",
   "status": "proved",
   "theorems": [
    "c31_lower_only",
    "c31_returned",
    "c31_iff",
    "c31_not_symmetric",
    "c31_accepts_asymmetric"
   ],
   "note": "In PropAlg.v."
  },
  {
   "property": "C32",
   "status": "proved",
   "theorems": [
    "c32_any",
    "c32_all_pairs",
    "c32_exact"
   ],
   "note": "In PropPred.v."
  },
  {
   "property": "C33",
   "status": "proved",
   "theorems": [
    "c33_isIdentity",
    "c33_eye"
   ],
   "note": "In PropPred.v."
  },
  {
   "property": "C34",
   "status": "proved",
   "theorems": [
    "c34_compare",
    "c34_refl",
    "c34_sym",
    "c34_mono",
    "c34_triangle",
    "c34_zero"
   ],
   "note": "In PropPred.v."
  },
  {
   "property": "C35",
   "status": "proved",
   "theorems": [
    "c35_compare",
    "c35_nan",
    "c35_equal",
    "c35_within",
    "c35_accepted",
    "c35_int_rounds"
   ],
   "note": "In PropFloat.v."
  },
  {
   "property": "C36",
   "status": "proved",
   "theorems": [
    "c36_int",
    "c36_int_min",
    "c36_abs",
    "c36_idem",
    "c36_junk"
   ],
   "note": "In PropInt.v, PropPred.v."
  },
  {
   "property": "C37",
   "status": "proved",
   "theorems": [
    "c37_mean",
    "c37_between",
    "c37_shift",
    "c37_scale",
    "c37_empty"
   ],
   "note": "In PropStat.v."
  },
  {
   "property": "C38",
   "status": "proved",
   "theorems": [
    "c38_nonneg",
    "c38_returns",
    "c38_negative",
    "c38_wrong",
    "c38_long"
   ],
   "note": "In PropInt.v."
  },
  {
   "property": "C39",
   "status": "proved",
   "theorems": [
    "c39_var",
    "c39_nonneg",
    "c39_zero_iff",
    "c39_koenig",
    "c39_shift",
    "c39_scale",
    "c39_stddev"
   ],
   "note": "In PropStat.v."
  },
  {
   "property": "C40",
   "status": "proved",
   "theorems": [
    "c40_odd",
    "c40_even",
    "c40_empty",
    "c40_independent",
    "c40_odd_independent",
    "c40_exact_order",
    "c40_int_order",
    "c40_sort_exists"
   ],
   "note": "In PropStat.v."
  },
  {
   "property": "C41",
   "status": "proved",
   "theorems": [
    "c41_histogram"
   ],
   "note": "In PropStat.v."
  },
  {
   "property": "C42",
   "status": "proved",
   "theorems": [
    "c42_cumulative",
    "c42_monotone"
   ],
   "note": "In PropStat.v."
  },
  {
   "property": "C43",
   "status": "proved",
   "theorems": [
    "c43_correlation",
    "c43_octave_rotated",
    "c43_octave_iff"
   ],
   "note": "In PropConv.v."
  },
  {
   "property": "C44",
   "status": "proved",
   "theorems": [
    "c44_bounds",
    "c44_too_large"
   ],
   "note": "In PropConv.v."
  },
  {
   "property": "C45",
   "status": "proved",
   "theorems": [
    "c45_full",
    "c45_same_full",
    "c45_same_valid",
    "c45_shapes",
    "c45_valid_exact"
   ],
   "note": "In PropConv.v."
  },
  {
   "property": "C46",
   "status": "proved",
   "theorems": [
    "c46_add",
    "c46_scale",
    "c46_kernel_add",
    "c46_kernel_scale",
    "c46_centre"
   ],
   "note": "In PropConv.v."
  },
  {
   "property": "C47",
   "status": "proved",
   "theorems": [
    "c47_text",
    "c47_off",
    "c47_parse",
    "c47_injective",
    "c47_char"
   ],
   "note": "In PropPrint.v."
  },
  {
   "property": "C48",
   "status": "proved",
   "theorems": [
    "c48_mult_eye",
    "c48_eye_mult",
    "c48_only_finite"
   ],
   "note": "In PropFloat.v."
  },
  {
   "property": "C49",
   "status": "proved",
   "theorems": [
    "c49_sum_comm",
    "c49_sub_self",
    "c49_mult_one",
    "c49_trans_trans",
    "c49_not_associative",
    "c49_add_sub"
   ],
   "note": "In PropFloat.v."
  },
  {
   "property": "C50",
   "status": "proved",
   "theorems": [
    "c50_symmetric",
    "c50_accepted",
    "c50_int",
    "c50_float"
   ],
   "note": "In PropFloat.v."
  },
  {
   "property": "C51",
   "status": "proved",
   "theorems": [
    "c51_mult",
    "c51_finite"
   ],
   "note": "In PropFloat.v."
  },
  {
   "property": "C52",
   "status": "proved",
   "theorems": [
    "c52_lu"
   ],
   "note": "In PropFloat.v."
  },
  {
   "property": "C53",
   "status": "proved",
   "theorems": [
    "c53_order",
    "c53_undefined",
    "c53_defined"
   ],
   "note": "In PropFloat.v."
  },
  {
   "property": "C54",
   "status": "proved",
   "theorems": [
    "c54_lu"
   ],
   "note": "In PropFloat2.v."
  },
  {
   "property": "C55",
   "status": "proved",
   "theorems": [
    "c55_chol",
    "c55_total",
    "c55_sqrt_double"
   ],
   "note": "In PropFloat2.v."
  },
  {
   "property": "C56",
   "status": "proved",
   "theorems": [
    "c56_mean"
   ],
   "note": "In PropFloat2.v."
  },
  {
   "property": "C57",
   "status": "proved",
   "theorems": [
    "c57_nonneg",
    "c57_stddev",
    "c57_error",
    "c57_variance",
    "c57_deviation"
   ],
   "note": "In PropFloat2.v, PropFloatVar.v."
  },
  {
   "property": "C58",
   "status": "proved",
   "theorems": [
    "c58_mean",
    "c58_var"
   ],
   "note": "In PropFloat2.v."
  },
  {
   "property": "C59",
   "status": "proved",
   "theorems": [
    "c59_det2",
    "c59_det3",
    "c59_singular",
    "c59_inv2",
    "c59_inv3",
    "c59_accepts_singular",
    "c59_overflow",
    "c59_rejects_nonsingular"
   ],
   "note": "In PropFloat2.v."
  },
  {
   "property": "C60",
   "status": "proved",
   "theorems": [
    "c60_row_major",
    "c60_col_major",
    "c60_same_order",
    "c60_rand_major",
    "c60_rand_possible",
    "c60_setRand",
    "c60_multiply",
    "c60_multiply_possible",
    "c60_strassen",
    "c60_det_inv"
   ],
   "note": "In PropBench.v."
  },
  {
   "property": "C61",
   "status": "proved",
   "theorems": [
    "c61_elementwise",
    "c61_mult",
    "c61_strassen",
    "c61_pow",
    "c61_det",
    "c61_conv2",
    "c61_predicates",
    "c61_histogram",
    "c61_exists",
    "c61_not_div",
    "c61_not_det4"
   ],
   "note": "In PropParam.v."
  },
  {
   "property": "C62",
   "status": "proved",
   "theorems": [
    "c62_sharp",
    "c62_sum",
    "c62_sub",
    "c62_mult_scalar",
    "c62_mult",
    "c62_pow",
    "c62_strassen",
    "c62_det1",
    "c62_det2",
    "c62_det3",
    "c62_conv2",
    "c62_exists"
   ],
   "note": "In PropParam.v, PropSmall.v."
  },
  {
   "property": "C63",
   "status": "proved",
   "theorems": [
    "c63_sum",
    "c63_sum_scalar",
    "c63_mult_scalar",
    "c63_mult",
    "c63_pow",
    "c63_conv2",
    "c63_sum_any",
    "c63_mean"
   ],
   "note": "In PropParam.v."
  },
  {
   "property": "C64",
   "status": "proved",
   "theorems": [
    "c64_sum",
    "c64_mult",
    "c64_mult_scalar",
    "c64_pow",
    "c64_conv2"
   ],
   "note": "In PropParam.v."
  },
  {
   "property": "C65",
   "status": "proved",
   "theorems": [
    "c65_grid",
    "c65_pow",
    "c65_nonneg",
    "c65_mult"
   ],
   "note": "In PropFloat3.v."
  },
  {
   "property": "C66",
   "status": "proved",
   "theorems": [
    "c66_conv2",
    "c66_full"
   ],
   "note": "In PropFloat3.v."
  },
  {
   "property": "C67",
   "status": "proved",
   "theorems": [
    "c67_strassen",
    "c67_small_entries_lost"
   ],
   "note": "In PropFloat3.v."
  },
  {
   "property": "C68",
   "status": "proved",
   "theorems": [
    "c68_stddev",
    "c68_stddev_wide",
    "c68_stddev_negative",
    "c68_one_more"
   ],
   "note": "In PropIntDec.v."
  },
  {
   "property": "C69",
   "status": "proved",
   "theorems": [
    "c69_lu",
    "c69_chol",
    "c69_sharp",
    "c69_too_large"
   ],
   "note": "In PropIntDec.v."
  },
  {
   "property": "C70",
   "status": "proved",
   "theorems": [
    "c70_int",
    "c70_int_throws",
    "c70_float",
    "c70_float_throws",
    "c70_det_true",
    "c70_inv_true",
    "c70_lu_true",
    "c70_chol_true",
    "c70_stat_true"
   ],
   "note": "In PropStrict.v."
  },
  {
   "property": "C71",
   "status": "proved",
   "theorems": [
    "c71_lu_int",
    "c71_det_int",
    "c71_lu_float",
    "c71_det_float",
    "c71_chol_int",
    "c71_chol_float"
   ],
   "note": "In PropStrict.v."
  },
  {
   "property": "C72",
   "status": "proved",
   "theorems": [
    "c72_det",
    "c72_growth"
   ],
   "note": "In PropFloatDet.v."
  },
  {
   "property": "C73",
   "status": "proved",
   "theorems": [
    "c73_trans",
    "c73_swap_rows",
    "c73_swap_cols",
    "c73_concatenate_v",
    "c73_concatenate_h",
    "c73_mean",
    "c73_var",
    "c73_stddev",
    "c73_int_mean",
    "c73_histogram",
    "c73_float_mean"
   ],
   "note": "In PropRearr.v."
  },
  {
   "property": "C74",
   "status": "proved",
   "theorems": [
    "c74_any",
    "c74_signed",
    "c74_signed4",
    "c74_right",
    "c74_returns",
    "c74_one",
    "c74_singular",
    "c74_unsigned",
    "c74_unsigned_wrong",
    "c74_wrong4"
   ],
   "note": "In PropIntInv.v."
  },
  {
   "property": "C75",
   "status": "proved",
   "theorems": [
    "c75_exact",
    "c75_int",
    "c75_narrow",
    "c75_signed",
    "c75_unsigned",
    "c75_wrong",
    "c75_float",
    "c75_finite",
    "c75_overflow"
   ],
   "note": "In PropMedian.v."
  },
  {
   "property": "C76",
   "status": "proved",
   "theorems": [
    "c76_elementwise",
    "c76_mult",
    "c76_strassen",
    "c76_pow",
    "c76_mean",
    "c76_var",
    "c76_stddev",
    "c76_conv",
    "c76_conv_full",
    "c76_conv_valid",
    "c76_det_small",
    "c76_det",
    "c76_inv_small",
    "c76_inv",
    "c76_lu",
    "c76_chol",
    "c76_lost"
   ],
   "note": "In PropFinite.v."
  },
  {
   "property": "C77",
   "status": "proved",
   "theorems": [
    "c77_det",
    "c77_det_model",
    "c77_concatenate",
    "c77_times",
    "c77_plus",
    "c77_minus_over",
    "c77_fixed",
    "c77_exclusive"
   ],
   "note": "In PropOverload.v."
  },
  {
   "property": "C78",
   "status": "proved",
   "theorems": [
    "c78_scale_elementwise",
    "c78_scale_mult",
    "c78_scale_conv",
    "c78_scale_det",
    "c78_scale_inv",
    "c78_scale_pow",
    "c78_scale_lu",
    "c78_scale_chol",
    "c78_scale_stat",
    "c78_range_needed",
    "c78_neg_linear",
    "c78_neg_conv",
    "c78_neg_det",
    "c78_neg_inv",
    "c78_neg_pow",
    "c78_neg_lu",
    "c78_neg_stat",
    "c78_zero_sign",
    "c78_units_arith",
    "c78_units_algebra",
    "c78_units_stat",
    "c78_units_root"
   ],
   "note": "In PropScale.v, PropSign.v, PropUnits.v."
  },
  {
   "property": "C79",
   "status": "proved",
   "theorems": [
    "c79_elementwise",
    "c79_join",
    "c79_minor",
    "c79_swap",
    "c79_mult",
    "c79_det2",
    "c79_inv2",
    "c79_symmetric",
    "c79_identity",
    "c79_compare",
    "c79_int",
    "c79_float",
    "c79_float2",
    "c79_not_float",
    "c79_conv",
    "c79_pow"
   ],
   "note": "In PropTrans.v, PropTransExact.v."
  },
  {
   "property": "C80",
   "status": "proved",
   "theorems": [
    "c80_permutes",
    "c80_undo",
    "c80_independent",
    "c80_trans",
    "c80_product",
    "c80_elements",
    "c80_det",
    "c80_inv"
   ],
   "note": "In PropHistory.v, PropHistoryExact.v."
  },
  {
   "property": "C81",
   "status": "proved",
   "theorems": [
    "c81_off_algebra",
    "c81_off_solve",
    "c81_off_stat",
    "c81_same_elementwise",
    "c81_same_strassen",
    "c81_same_det",
    "c81_same_inv",
    "c81_same_mean",
    "c81_eye",
    "c81_trans",
    "c81_symmetric",
    "c81_mult_error",
    "c81_var",
    "c81_int_mult",
    "c81_int_pow",
    "c81_int_det",
    "c81_int_conv2",
    "c81_singular_off",
    "c81_singular_det",
    "c81_singular_inv",
    "c81_matters",
    "c81_singular_inverted",
    "c81_lu_error",
    "c81_chol_error",
    "c81_pow_error",
    "c81_conv2_error",
    "c81_conv2_full_error",
    "c81_det2_error",
    "c81_det3_error"
   ],
   "note": "In PropFma.v, PropFma2.v."
  },
  {
   "property": "C82",
   "status": "proved",
   "theorems": [
    "c82_over",
    "c82_beside",
    "c82_mult_over",
    "c82_mult_beside",
    "c82_conv2_local",
    "c82_lu_lead",
    "c82_lu_fails",
    "c82_chol_lead",
    "c82_lu_local",
    "c82_inner",
    "c82_mult_blocks",
    "c82_det_upper",
    "c82_det_lower",
    "c82_schur",
    "c82_inv_upper",
    "c82_inv_diag"
   ],
   "note": "In PropBlock.v, PropBlockExact.v."
  },
  {
   "property": "C83",
   "status": "proved",
   "theorems": [
    "c83_mult",
    "c83_sum",
    "c83_sub",
    "c83_scalar",
    "c83_trans",
    "c83_laws",
    "c83_distr",
    "c83_unit",
    "c83_sum_laws",
    "c83_conv2",
    "c83_pow",
    "c83_mean",
    "c83_median",
    "c83_det",
    "c83_closure",
    "c83_det_large",
    "c83_bad"
   ],
   "note": "In PropBool.v, PropBoolReach.v."
  },
  {
   "property": "C84",
   "status": "proved",
   "theorems": [
    "c84_add",
    "c84_mul",
    "c84_neg",
    "c84_det",
    "c84_commute",
    "c84_similar",
    "c84_solve",
    "c84_kernel",
    "c84_one_sided",
    "c84_cramer"
   ],
   "note": "In PropPowers.v."
  },
  {
   "property": "C85",
   "status": "proved",
   "theorems": [
    "c85_default",
    "c85_mult",
    "c85_elementwise",
    "c85_conv2",
    "c85_mean",
    "c85_div",
    "c85_inv1",
    "c85_sqrt",
    "c85_between",
    "c85_error",
    "c85_pow",
    "c85_mirror",
    "c85_eye",
    "c85_trans",
    "c85_int_algebra",
    "c85_int_det",
    "c85_det_not_enclosed",
    "c85_pow_not_enclosed",
    "c85_example"
   ],
   "note": "In PropRound.v."
  },
  {
   "property": "C86",
   "status": "proved",
   "theorems": [
    "c86_same_runs",
    "c86_mult",
    "c86_strassen",
    "c86_statistics",
    "c86_conv2",
    "c86_closed_formulas",
    "c86_det",
    "c86_inv",
    "c86_pow",
    "c86_pow_negative",
    "c86_lu",
    "c86_chol",
    "c86_example"
   ],
   "note": "In PropCost.v."
  },
  {
   "property": "C87",
   "status": "proved",
   "theorems": [
    "c87_value",
    "c87_error",
    "c87_order",
    "c87_distinct",
    "c87_integer",
    "c87_special",
    "c87_sign",
    "c87_words",
    "c87_read_back",
    "c87_like_int",
    "c87_lossy",
    "c87_example"
   ],
   "note": "In PropPrintF.v."
  },
  {
   "property": "C88",
   "status": "proved",
   "theorems": [
    "c88_no_race",
    "c88_results",
    "c88_readers",
    "c88_ends",
    "c88_disjoint_rows",
    "c88_race",
    "c88_alone",
    "c88_lost",
    "c88_print_mixes"
   ],
   "note": "In PropConc.v."
  },
  {
   "property": "C89",
   "status": "proved",
   "theorems": [
    "c89_around",
    "c89_far",
    "c89_range",
    "c89_median",
    "c89_concatenate_v",
    "c89_concatenate_h",
    "c89_histogram",
    "c89_cumulative"
   ],
   "note": "In PropIneq.v."
  },
  {
   "property": "C90",
   "status": "proved",
   "theorems": [
    "c90_commute",
    "c90_commute_valid",
    "c90_total",
    "c90_pad_above",
    "c90_pad_below",
    "c90_pad_left",
    "c90_pad_right",
    "c90_separable",
    "c90_constant",
    "c90_smooth_valid",
    "c90_smooth",
    "c90_same_differs"
   ],
   "note": "In PropConvLaws.v."
  },
  {
   "property": "C91",
   "status": "proved",
   "theorems": [
    "c91_equal_algebra",
    "c91_equal_solve",
    "c91_equal_stat",
    "c91_same_compare",
    "c91_same_elementwise",
    "c91_same_mean",
    "c91_eye",
    "c91_trans",
    "c91_symmetric",
    "c91_mult_error",
    "c91_var",
    "c91_median",
    "c91_det2_number",
    "c91_singular",
    "c91_det2_error",
    "c91_inv_rejects",
    "c91_det3",
    "c91_det3_error",
    "c91_int_mult",
    "c91_int_pow",
    "c91_int_det",
    "c91_int_conv2",
    "c91_formats",
    "c91_double_rounding",
    "c91_product_differs",
    "c91_inv_differs"
   ],
   "note": "In PropExt.v."
  },
  {
   "property": "C92",
   "status": "proved",
   "theorems": [
    "c92_exact",
    "c92_integer",
    "c92_unsigned",
    "c92_signed",
    "c92_law_integer",
    "c92_law_unsigned",
    "c92_truncate",
    "c92_cast",
    "c92_expression",
    "c92_ring",
    "c92_power",
    "c92_det",
    "c92_strassen",
    "c92_loop",
    "c92_float",
    "c92_widen"
   ],
   "note": "In PropProgram.v, PropProgramF.v."
  },
  {
   "property": "C93",
   "status": "proved",
   "theorems": [
    "c93_det",
    "c93_det_bound",
    "c93_inv",
    "c93_inv_rows",
    "c93_inv_cols",
    "c93_solve",
    "c93_lu_rows",
    "c93_lu_cols",
    "c93_discs",
    "c93_chol"
   ],
   "note": "In PropDom.v."
  },
  {
   "property": "C94",
   "status": "proved",
   "theorems": [
    "c94_lu",
    "c94_minors",
    "c94_inv",
    "c94_sum",
    "c94_normal",
    "c94_diag",
    "c94_hadamard",
    "c94_pow",
    "c94_chol",
    "c94_chol_lu",
    "c94_semidefinite",
    "c94_indefinite",
    "c94_float"
   ],
   "note": "In PropDefinite.v, PropDefiniteF.v."
  },
  {
   "property": "C95",
   "status": "proved",
   "theorems": [
    "c95_upper",
    "c95_upper_pow",
    "c95_upper_det",
    "c95_upper_inv",
    "c95_lower",
    "c95_lower_inv",
    "c95_nilpotent",
    "c95_orthogonal",
    "c95_orthogonal_mult",
    "c95_orthogonal_pow",
    "c95_isometry",
    "c95_permutation",
    "c95_symmetric_mult",
    "c95_symmetric_pow",
    "c95_symmetric_inv",
    "c95_skew",
    "c95_idempotent",
    "c95_involution",
    "c95_stochastic",
    "c95_stochastic_pow",
    "c95_average",
    "c95_float_upper",
    "c95_float_lower",
    "c95_float_upper_pow",
    "c95_float_select"
   ],
   "note": "In PropClass.v, PropClassF.v."
  },
  {
   "property": "C96",
   "status": "proved",
   "theorems": [
    "c96_entry",
    "c96_det",
    "c96_det3",
    "c96_error",
    "c96_zero",
    "c96_zero_row",
    "c96_zero_col",
    "c96_inv",
    "c96_unit",
    "c96_det3_nan"
   ],
   "note": "In PropInvF.v, PropTriF.v."
  },
  {
   "property": "C97",
   "status": "proved",
   "theorems": [
    "c97_weight",
    "c97_unsigned",
    "c97_signed",
    "c97_signed_only",
    "c97_float",
    "c97_degree",
    "c97_degree_signed",
    "c97_recurrence",
    "c97_recurrence_unsigned",
    "c97_fib_unsigned",
    "c97_fib_signed",
    "c97_fib_int",
    "c97_fib_float",
    "c97_fib_double",
    "c97_fib_single"
   ],
   "note": "In PropCount.v."
  },
  {
   "property": "C98",
   "status": "proved",
   "theorems": [
    "c98_eigen",
    "c98_cayley_hamilton",
    "c98_interpolate",
    "c98_sylvester",
    "c98_det_update",
    "c98_woodbury",
    "c98_sherman_morrison",
    "c98_swap",
    "c98_swap_square",
    "c98_similar",
    "c98_normal",
    "c98_least_squares",
    "c98_projection"
   ],
   "note": "In PropSpectral.v."
  },
  {
   "property": "C99",
   "status": "proved",
   "theorems": [
    "c99_exact_sum",
    "c99_exact_sub",
    "c99_exact_scale",
    "c99_exact_mult",
    "c99_exact_strassen",
    "c99_exact_trans",
    "c99_exact_det",
    "c99_four_products",
    "c99_double",
    "c99_symmetric",
    "c99_infinity",
    "c99_mult_error",
    "c99_real",
    "c99_conj",
    "c99_gauss",
    "c99_gauss_mult",
    "c99_eye"
   ],
   "note": "In PropComplexE.v, PropComplexF.v, PropComplexR.v."
  },
  {
   "property": "C100",
   "status": "proved",
   "theorems": [
    "c100_scalar",
    "c100_returned",
    "c100_iff",
    "c100_symmetric",
    "c100_hermitian",
    "c100_real",
    "c100_abs",
    "c100_compare"
   ],
   "note": "In PropComplexChol.v."
  },
  {
   "property": "C101",
   "status": "proved",
   "theorems": [
    "c101_trans",
    "c101_sum",
    "c101_scalar",
    "c101_abs",
    "c101_mult",
    "c101_strassen",
    "c101_pow",
    "c101_det",
    "c101_inv",
    "c101_conv",
    "c101_conv_valid",
    "c101_mean",
    "c101_median",
    "c101_stddev_sum",
    "c101_stddev",
    "c101_inv_limit",
    "c101_mult_reached",
    "c101_jump"
   ],
   "note": "In PropPerturb.v."
  },
  {
   "property": "C102",
   "status": "proved",
   "theorems": [
    "c102_bool",
    "c102_exact",
    "c102_cost",
    "c102_sum_laws",
    "c102_assoc",
    "c102_distr",
    "c102_unit",
    "c102_zero",
    "c102_scalar",
    "c102_trans",
    "c102_pow_add",
    "c102_pow_routes",
    "c102_conv",
    "c102_cost_pow",
    "c102_cost_upto",
    "c102_distances",
    "c102_ex",
    "c102_map_heights",
    "c102_map_trips",
    "c102_map_case"
   ],
   "note": "In PropSemi.v."
  },
  {
   "property": "C103",
   "status": "proved",
   "theorems": [
    "c103_values_products",
    "c103_values_solve",
    "c103_values_stats",
    "c103_sum",
    "c103_sub",
    "c103_trans",
    "c103_mult",
    "c103_strassen",
    "c103_pow",
    "c103_conv",
    "c103_det",
    "c103_inv",
    "c103_mean",
    "c103_var",
    "c103_abs",
    "c103_stddev",
    "c103_det_lost",
    "c103_inv_lost",
    "c103_lu",
    "c103_chol"
   ],
   "note": "In PropDual.v, PropDualFact.v."
  },
  {
   "property": "C104",
   "status": "proved",
   "theorems": [
    "c104_decay",
    "c104_refine",
    "c104_refine_stop",
    "c104_jacobi",
    "c104_newton",
    "c104_series",
    "c104_absorbing",
    "c104_steady",
    "c104_limit",
    "c104_damped",
    "c104_vanish",
    "c104_limit_reached",
    "c104_periodic",
    "c104_rows_one"
   ],
   "note": "In PropLong.v."
  },
  {
   "property": "C105",
   "status": "proved",
   "theorems": [
    "c105_solution",
    "c105_bounded",
    "c105_error",
    "c105_stop",
    "c105_compare",
    "c105_settled",
    "c105_size",
    "c105_cycle"
   ],
   "note": "In PropIter.v."
  },
  {
   "property": "C106",
   "status": "proved",
   "theorems": [
    "c106_sum",
    "c106_sub",
    "c106_mult",
    "c106_scale",
    "c106_trans",
    "c106_eye",
    "c106_pow",
    "c106_conv2",
    "c106_det_small",
    "c106_det",
    "c106_inv",
    "c106_lu",
    "c106_div",
    "c106_mean",
    "c106_var",
    "c106_symmetric",
    "c106_equal",
    "c106_compare",
    "c106_chol",
    "c106_stddev",
    "c106_example_chol",
    "c106_verified_solve",
    "c106_points_inv",
    "c106_points_det",
    "c106_mult_sharp",
    "c106_example_inv",
    "c106_example_solve",
    "c106_dependency",
    "c106_compare_true",
    "c106_stddev_refused",
    "c106_median_wrong",
    "c106_median_undefined",
    "c106_possible_equality"
   ],
   "note": "In PropIval.v, PropIval2.v."
  },
  {
   "property": "C107",
   "status": "proved",
   "theorems": [
    "c107_sum",
    "c107_sub",
    "c107_mult",
    "c107_det_small",
    "c107_pow",
    "c107_conv2",
    "c107_det",
    "c107_det_recover",
    "c107_inv",
    "c107_inv_singular",
    "c107_inv_one_zero",
    "c107_hill",
    "c107_pow_neg",
    "c107_lu",
    "c107_lu_refused",
    "c107_div",
    "c107_div_zero",
    "c107_mean",
    "c107_mean_lost",
    "c107_det_crt",
    "c107_composite",
    "c107_compare",
    "c107_example",
    "c107_example_lost"
   ],
   "note": "In PropModInt.v."
  },
  {
   "property": "C108",
   "status": "proved",
   "theorems": [
    "c108_sum",
    "c108_sub",
    "c108_sum_returns",
    "c108_mult",
    "c108_mult_returns",
    "c108_eye",
    "c108_trans",
    "c108_gram",
    "c108_int_mult",
    "c108_int_pow",
    "c108_int_det",
    "c108_int_conv2",
    "c108_mean",
    "c108_var",
    "c108_stddev",
    "c108_det2",
    "c108_inv2_singular",
    "c108_inv2",
    "c108_compare",
    "c108_policy",
    "c108_singular3",
    "c108_small",
    "c108_sign",
    "c108_regroup",
    "c108_example"
   ],
   "note": "In PropFixed.v."
  },
  {
   "property": "C109",
   "status": "proved",
   "theorems": [
    "c109_sum",
    "c109_sub",
    "c109_mult",
    "c109_strassen",
    "c109_eye",
    "c109_pow",
    "c109_trans",
    "c109_det",
    "c109_inv",
    "c109_inv_singular",
    "c109_scalar",
    "c109_mean",
    "c109_lu",
    "c109_example",
    "c109_recursive",
    "c109_nest_inj",
    "c109_blocks_inj",
    "c109_inv_wrong",
    "c109_lu_wrong"
   ],
   "note": "In PropBlockElt.v."
  }
 ]
}