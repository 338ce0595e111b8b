# Print Assumptions, theorem by theorem

Generated from the compiled development. Only axioms of the Coq standard library occur:

* **A1** `ClassicalDedekindReals.sig_forall_dec`
* **A2** `ClassicalDedekindReals.sig_not_dec`
* **A3** `Classical_Prop.classic`
* **A4** `FunctionalExtensionality.functional_extensionality_dep`

| theorem | file | assumptions |
|---|---|---|
| `C01_new_accepts_exactly_unit_interval` | C01_C10_Probability.v | A1, A2, A3, A4 |
| `C02_mul_not_unchecked_ok` | C01_C10_Probability.v | A1, A2, A3, A4 |
| `C02_reachable_probabilities_valid` | C01_C10_Probability.v | A1, A2, A3, A4 |
| `C03_complement_laws` | C01_C10_Probability.v | A1, A2, A3, A4 |
| `C03_involution_refuted_below_half` | C01_C10_Probability.v | A1, A2, A3, A4 |
| `C04_checked_ops` | C01_C10_Probability.v | A1, A2, A3, A4 |
| `C05_simplex_new` | C01_C10_Probability.v | A1, A2, A3, A4 |
| `C06_sample_index` | C01_C10_Probability.v | closed under the global context |
| `C07_zero_weight_partial` | C01_C10_Probability.v | A1, A2, A3, A4 |
| `C07_zero_weight_refuted` | C01_C10_Probability.v | A1, A2, A3, A4 |
| `C08_index_interval` | C01_C10_Probability.v | A1, A2, A3, A4 |
| `C09_simplex_sample_partial` | C01_C10_Probability.v | A1, A2, A3, A4 |
| `C09_simplex_sample_refuted` | C01_C10_Probability.v | A1, A2, A3, A4 |
| `C100_student_t_cdf_all_refuted` | C94_C101_Ranges.v | A1, A2, A3, A4 |
| `C100_student_t_cdf_partial` | C99_C101_StudentT.v | A1, A2, A3, A4 |
| `C100_student_t_cdf_refuted` | C99_C101_StudentT.v | A1, A2, A3, A4 |
| `C101_student_t_entropy_large_refuted` | C94_C101_Ranges.v | A1, A2, A3, A4 |
| `C101_student_t_entropy_refuted` | C99_C101_StudentT.v | A1, A2, A3, A4 |
| `C101_student_t_new_refuted` | C99_C101_StudentT.v | A1, A2, A3, A4 |
| `C102_inverse_normal` | C102_C107_Normals.v | A1, A2, A3, A4 |
| `C103_inverse_normal_sample` | C102_C107_Normals.v | A1, A2, A3, A4 |
| `C104_inverse_normal_cdf_refuted` | C102_C107_Normals.v | A1, A2, A3, A4 |
| `C104_inverse_normal_moments_refuted` | C102_C107_Normals.v | A1, A2, A3, A4 |
| `C105_folded_normal` | C102_C107_Normals.v | A1, A2, A3, A4 |
| `C106_folded_normal_modes_partial` | C102_C107_Normals.v | A1, A2, A3, A4 |
| `C106_folded_normal_modes_refuted` | C102_C107_Normals.v | A1, A2, A3, A4 |
| `C107_normal_sample` | C102_C107_Normals.v | A1, A2, A3, A4 |
| `C108_beta_binomial` | C108_C109_BetaBinomial.v | A1, A2, A3, A4 |
| `C109_kurtosis_all_refuted` | C109_Kurtosis.v | A1, A2, A3, A4 |
| `C109_kurtosis_refuted` | C108_C109_BetaBinomial.v | A1, A2, A3, A4 |
| `C109_skewness_is_third_moment_partial` | C108_C109_BetaBinomial.v | A1, A2, A3, A4 |
| `C109_skewness_refuted` | C108_C109_BetaBinomial.v | A1, A2, A3, A4 |
| `C109_support_cdf_refuted` | C108_C109_BetaBinomial.v | A1, A2, A3, A4 |
| `C10_centre` | C01_C10_Probability.v | A1, A2, A3, A4 |
| `C110_weibull` | C110_C112_ExtremeValue.v | A1, A2, A3, A4 |
| `C111_frechet` | C110_C112_ExtremeValue.v | A1, A2, A3, A4 |
| `C112_gev_partial` | C110_C112_ExtremeValue.v | A1, A2, A3, A4 |
| `C113_gumbel` | C113_C114_Logistic.v | A1, A2, A3, A4 |
| `C114_logistic` | C113_C114_Logistic.v | A1, A2, A3, A4 |
| `C115_binomial_cdf_partial` | C115_C118_Discrete.v | A1, A2, A3, A4 |
| `C115_cdf_refuted` | C115_C118_Discrete.v | A1, A2, A3, A4 |
| `C116_excess_partial` | C115_C118_Discrete.v | A1, A2, A3, A4 |
| `C116_kurtosis_refuted` | C115_C118_Discrete.v | A1, A2, A3, A4 |
| `C117_binomial_integer_mean` | C117_Medians.v | A1, A2, A3, A4 |
| `C117_binomial_near` | C117_Medians.v | A1, A2, A3, A4 |
| `C117_binomial_partial` | C115_C118_Discrete.v | A1, A2, A3, A4 |
| `C117_binomial_refuted` | C115_C118_Discrete.v | A1, A2, A3, A4 |
| `C117_geometric_partial` | C115_C118_Discrete.v | A1, A2, A3, A4 |
| `C117_geometric_refuted` | C115_C118_Discrete.v | A1, A2, A3, A4 |
| `C117_poisson_near` | C117_Medians.v | A1, A2, A3, A4 |
| `C117_poisson_partial` | C115_C118_Discrete.v | A1, A2, A3, A4 |
| `C117_poisson_refuted` | C115_C118_Discrete.v | A1, A2, A3, A4 |
| `C117_poisson_two_thirds` | C117_Medians.v | A1, A2, A3, A4 |
| `C118_entropy_partial` | C115_C118_Discrete.v | A1, A2, A3, A4 |
| `C118_entropy_refuted` | C115_C118_Discrete.v | A1, A2, A3, A4 |
| `C119_homogeneous` | C119_Multivariate.v | A1, A2, A3, A4 |
| `C119_lognormal_ctors` | C119_Multivariate.v | A1, A2, A3, A4 |
| `C119_lognormal_pdf_refuted` | C119_Multivariate.v | A1, A2, A3, A4 |
| `C119_lognormal_sample_partial` | C119_Multivariate.v | A1, A2, A3, A4 |
| `C119_lognormal_sample` | C119_Multivariate.v | A1, A2, A3, A4 |
| `C119_standard` | C119_Multivariate.v | A1, A2, A3, A4 |
| `C11_check_agrees_with_is_satisfied_by` | C11_C17_Params.v | closed under the global context |
| `C120_kumaraswamy_partial` | C120_C121_Moments.v | A1, A2, A3, A4 |
| `C120_kumaraswamy_refuted` | C120_C121_Moments.v | A1, A2, A3, A4 |
| `C121_gpd_formulas_partial` | C121_GpdFormulas.v | A1, A2, A3, A4 |
| `C121_gpd_partial` | C120_C121_Moments.v | A1, A2, A3, A4 |
| `C121_gpd_refuted` | C120_C121_Moments.v | A1, A2, A3, A4 |
| `C122_entropies_partial` | C122_C124_Entropies.v | A1, A2, A3, A4 |
| `C122_entropies_refuted` | C122_C124_Entropies.v | A1, A2, A3, A4 |
| `C123_levy_moments` | C122_C124_Entropies.v | A1, A2, A3, A4 |
| `C124_higher_moments_partial` | C122_C124_Entropies.v | A1, A2, A3, A4 |
| `C124_higher_moments_refuted` | C122_C124_Entropies.v | A1, A2, A3, A4 |
| `C125_beta` | C125_C127_Sampling.v | A1, A2, A3, A4 |
| `C125_cauchy` | C125_C127_Sampling.v | A1, A2, A3, A4 |
| `C125_chi_squared` | C125_C127_Sampling.v | A1, A2, A3, A4 |
| `C125_exponential` | C125_C127_Sampling.v | A1, A2, A3, A4 |
| `C125_f_dist` | C125_C127_Sampling.v | A1, A2, A3, A4 |
| `C125_lognormal_refuted` | C125_C127_Sampling.v | A1, A2, A3, A4 |
| `C125_pareto` | C125_C127_Sampling.v | A1, A2, A3, A4 |
| `C125_student_t` | C125_C127_Sampling.v | A1, A2, A3, A4 |
| `C125_triangular` | C125_C127_Sampling.v | A1, A2, A3, A4 |
| `C125_weibull` | C125_C127_Sampling.v | A1, A2, A3, A4 |
| `C126_bernoulli` | C125_C127_Sampling.v | A1, A2, A3, A4 |
| `C126_binomial` | C125_C127_Sampling.v | A1, A2, A3, A4 |
| `C126_geometric` | C125_C127_Sampling.v | A1, A2, A3, A4 |
| `C126_poisson` | C125_C127_Sampling.v | A1, A2, A3, A4 |
| `C126_uniform_i64` | C125_C127_Sampling.v | A1, A2, A3, A4 |
| `C127_frechet_refuted` | C125_C127_Sampling.v | A1, A2, A3, A4 |
| `C127_kumaraswamy` | C125_C127_Sampling.v | A1, A2, A3, A4 |
| `C127_laplace` | C125_C127_Sampling.v | A1, A2, A3, A4 |
| `C127_uniform` | C125_C127_Sampling.v | A1, A2, A3, A4 |
| `C128_elementary` | C128_C130_Supports.v | A1, A2, A3, A4 |
| `C128_refuted` | C128_C130_Supports.v | A1, A2, A3, A4 |
| `C128_special` | C128_C130_Supports.v | A1, A2, A3, A4 |
| `C129_zero_off_partial` | C128_C130_Supports.v | A1, A2, A3, A4 |
| `C129_zero_off_refuted` | C128_C130_Supports.v | A1, A2, A3, A4 |
| `C12_connectives` | C11_C17_Params.v | closed under the global context |
| `C12_nan_and_integers` | C11_C17_Params.v | A1, A2, A3, A4 |
| `C12_order_f64` | C11_C17_Params.v | A1, A2, A3, A4 |
| `C130_discrete_partial` | C128_C130_Supports.v | A1, A2, A3, A4 |
| `C130_discrete_refuted` | C128_C130_Supports.v | A1, A2, A3, A4 |
| `C131_defaults_uniform_bivariate` | C131_C132_Constructors.v | closed under the global context |
| `C131_defaults` | C131_C132_Constructors.v | closed under the global context |
| `C131_standard_laws` | C131_C132_Constructors.v | A1, A2, A3, A4 |
| `C132_half_normal` | C131_C132_Constructors.v | A1, A2, A3, A4 |
| `C132_normals2` | C131_C132_Constructors.v | A1, A2, A3, A4 |
| `C132_triangular_symmetric` | C131_C132_Constructors.v | A1, A2, A3, A4 |
| `C133_arcsine_partial` | C133_F64Cdf.v | A1, A2, A3, A4 |
| `C133_arcsine_refuted` | C133_F64Cdf.v | A1, A2, A3, A4 |
| `C133_cauchy` | C133_F64Cdf.v | A1, A2, A3, A4 |
| `C133_exponential_refuted` | C133_F64Cdf.v | A1, A2, A3, A4 |
| `C133_exponential` | C133_F64Cdf.v | A1, A2, A3, A4 |
| `C133_frechet` | C133_F64Cdf.v | A1, A2, A3, A4 |
| `C133_gev` | C133_F64Cdf.v | A1, A2, A3, A4 |
| `C133_gpd` | C133_F64Cdf.v | A1, A2, A3, A4 |
| `C133_gumbel` | C133_F64Cdf.v | A1, A2, A3, A4 |
| `C133_kumaraswamy` | C133_F64Cdf.v | A1, A2, A3, A4 |
| `C133_laplace_refuted` | C133_C135_F64More.v | A1, A2, A3, A4 |
| `C133_logistic` | C133_F64Cdf.v | A1, A2, A3, A4 |
| `C133_lognormal` | C133_C135_F64More.v | A1, A2, A3, A4 |
| `C133_normal` | C133_F64Cdf.v | A1, A2, A3, A4 |
| `C133_pareto` | C133_F64Cdf.v | A1, A2, A3, A4 |
| `C133_rayleigh` | C133_F64Cdf.v | A1, A2, A3, A4 |
| `C133_triangular_refuted` | C133_F64Cdf.v | A1, A2, A3, A4 |
| `C133_weibull` | C133_F64Cdf.v | A1, A2, A3, A4 |
| `C134_beta_binomial` | C134_Totality.v | closed under the global context |
| `C134_binomial` | C134_Totality.v | closed under the global context |
| `C134_chi_sq` | C134_Totality.v | closed under the global context |
| `C134_choose_fits_62` | C134_Totality.v | closed under the global context |
| `C134_erlang` | C134_Totality.v | closed under the global context |
| `C134_geometric` | C134_Totality.v | closed under the global context |
| `C134_poisson` | C134_Totality.v | closed under the global context |
| `C134_quantile_refuted` | C134_Totality.v | closed under the global context |
| `C134_uniform_int` | C134_Totality.v | closed under the global context |
| `C134_unimplemented_refuted` | C134_Totality.v | closed under the global context |
| `C135_cauchy_partial` | C135_F64Pdf.v | A1, A2, A3, A4 |
| `C135_cauchy_refuted` | C135_F64Pdf.v | A1, A2, A3, A4 |
| `C135_exponential` | C135_F64Pdf.v | A1, A2, A3, A4 |
| `C135_folded_normal` | C135_F64Pdf.v | A1, A2, A3, A4 |
| `C135_frechet_partial` | C133_C135_F64More.v | A1, A2, A3, A4 |
| `C135_frechet_refuted` | C135_F64Pdf.v | A1, A2, A3, A4 |
| `C135_gev` | C135_F64Pdf.v | A1, A2, A3, A4 |
| `C135_gpd` | C135_F64Pdf.v | A1, A2, A3, A4 |
| `C135_gumbel_partial` | C135_F64Pdf.v | A1, A2, A3, A4 |
| `C135_gumbel_refuted` | C135_F64Pdf.v | A1, A2, A3, A4 |
| `C135_laplace_nan` | C135_F64Pdf.v | A1, A2, A3, A4 |
| `C135_laplace` | C135_F64Pdf.v | A1, A2, A3, A4 |
| `C135_logistic_partial` | C135_F64Pdf.v | A1, A2, A3, A4 |
| `C135_logistic_refuted` | C135_F64Pdf.v | A1, A2, A3, A4 |
| `C135_lognormal` | C135_F64Pdf.v | A1, A2, A3, A4 |
| `C135_normal` | C135_F64Pdf.v | A1, A2, A3, A4 |
| `C135_pareto_partial` | C133_C135_F64More.v | A1, A2, A3, A4 |
| `C135_pareto_refuted` | C135_F64Pdf.v | A1, A2, A3, A4 |
| `C135_rayleigh_partial` | C135_F64Pdf.v | A1, A2, A3, A4 |
| `C135_rayleigh_refuted` | C135_F64Pdf.v | A1, A2, A3, A4 |
| `C135_uniform` | C135_F64Pdf.v | A1, A2, A3, A4 |
| `C135_weibull_partial` | C133_C135_F64More.v | A1, A2, A3, A4 |
| `C135_weibull_refuted` | C135_F64Pdf.v | A1, A2, A3, A4 |
| `C136_chi_all_even_refuted` | C136_ChiMedians.v | A1, A2, A3, A4 |
| `C136_chi_refuted` | C136_Medians.v | A1, A2, A3, A4 |
| `C136_chi_squared_all_even_refuted` | C136_ChiMedians.v | A1, A2, A3, A4 |
| `C136_chi_squared_partial` | C136_Medians.v | A1, A2, A3, A4 |
| `C136_chi_squared_refuted` | C136_Medians.v | A1, A2, A3, A4 |
| `C136_uniform_i64` | C136_Medians.v | A1, A2, A3, A4 |
| `C137_dirichlet_partial` | C137_MvSupports.v | A1, A2, A3, A4 |
| `C137_dirichlet_refuted` | C137_MvSupports.v | A1, A2, A3, A4 |
| `C137_lognormal_refuted` | C137_MvSupports.v | A1, A2, A3, A4 |
| `C137_lognormal` | C137_MvSupports.v | A1, A2, A3, A4 |
| `C137_multinomial_refuted` | C137_MvSupports.v | A1, A2, A3, A4 |
| `C137_normal` | C137_MvSupports.v | A1, A2, A3, A4 |
| `C138_constants` | C138_ProbabilityOps.v | A1, A2, A3, A4 |
| `C138_constraint` | C138_ProbabilityOps.v | A1, A2, A3, A4 |
| `C138_logs_powers` | C138_ProbabilityOps.v | A1, A2, A3, A4 |
| `C138_order` | C138_ProbabilityOps.v | A1, A2, A3, A4 |
| `C138_product_assoc_refuted` | C138_ProbabilityOps.v | A1, A2, A3, A4 |
| `C138_product` | C138_ProbabilityOps.v | A1, A2, A3, A4 |
| `C138_sum_mixed` | C138_ProbabilityOps.v | A1, A2, A3, A4 |
| `C139_categorical` | C139_SamplerLaws.v | A1, A2, A3, A4 |
| `C139_inverse_normal` | C139_SamplerLaws.v | A1, A2, A3, A4 |
| `C13_empty_array_refuted` | C11_C17_Params.v | closed under the global context |
| `C13_empty_vec_partial` | C11_C17_Params.v | closed under the global context |
| `C140_small_shape` | C140_GevGumbel.v | A1, A2, A3, A4 |
| `C140_zero_shape` | C140_GevGumbel.v | A1, A2, A3, A4 |
| `C141_degenerate_i64` | C141_Degenerate.v | A1, A2, A3, A4 |
| `C141_pdf_refuted` | C141_Degenerate.v | A1, A2, A3, A4 |
| `C141_skewness_refuted` | C141_Degenerate.v | A1, A2, A3, A4 |
| `C141_undefined` | C141_Degenerate.v | A1, A2, A3, A4 |
| `C142_chi_squared` | C142_Relations.v | A1, A2, A3, A4 |
| `C142_exponential` | C142_Relations.v | A1, A2, A3, A4 |
| `C142_extremes` | C142_Relations.v | A1, A2, A3, A4 |
| `C142_heavy_tails` | C142_Relations.v | A1, A2, A3, A4 |
| `C142_rayleigh` | C142_Relations.v | A1, A2, A3, A4 |
| `C142_unit_interval` | C142_Relations.v | A1, A2, A3, A4 |
| `C143_beta` | C143_Transforms.v | A1, A2, A3, A4 |
| `C143_chi` | C143_Transforms.v | A1, A2, A3, A4 |
| `C143_exponential` | C143_Transforms.v | A1, A2, A3, A4 |
| `C143_f` | C143_Transforms.v | A1, A2, A3, A4 |
| `C143_gamma` | C143_Transforms.v | A1, A2, A3, A4 |
| `C143_normal` | C143_Transforms.v | A1, A2, A3, A4 |
| `C143_student` | C143_Transforms.v | A1, A2, A3, A4 |
| `C144_intervals` | C144_LocationScale.v | A1, A2, A3, A4 |
| `C144_real_line` | C144_LocationScale.v | A1, A2, A3, A4 |
| `C144_scale` | C144_LocationScale.v | A1, A2, A3, A4 |
| `C145_intervals` | C145_Symmetry.v | A1, A2, A3, A4 |
| `C145_plane` | C145_Symmetry.v | A1, A2, A3, A4 |
| `C145_real_line` | C145_Symmetry.v | A1, A2, A3, A4 |
| `C145_triangular_refuted` | C145_Symmetry.v | A1, A2, A3, A4 |
| `C146_bernoulli` | C146_DiscreteRelations.v | A1, A2, A3, A4 |
| `C146_beta_binomial` | C146_DiscreteRelations.v | A1, A2, A3, A4 |
| `C146_binomial_reflection` | C146_DiscreteRelations.v | A1, A2, A3, A4 |
| `C146_memoryless` | C146_DiscreteRelations.v | A1, A2, A3, A4 |
| `C146_multinomial` | C146_DiscreteRelations.v | A1, A2, A3, A4 |
| `C147_bivariate_samples` | C147_MvRelations.v | A1, A2, A3, A4 |
| `C147_dirichlet_beta` | C147_MvRelations.v | A1, A2, A3, A4 |
| `C147_independent` | C147_MvRelations.v | A1, A2, A3, A4 |
| `C147_lognormal_refuted` | C147_MvRelations.v | A1, A2, A3, A4 |
| `C147_one_dimension` | C147_MvRelations.v | A1, A2, A3, A4 |
| `C148_beta` | C148_CentreOrder.v | A1, A2, A3, A4 |
| `C148_chi_squared` | C148_CentreOrder.v | A1, A2, A3, A4 |
| `C148_exponential` | C148_CentreOrder.v | A1, A2, A3, A4 |
| `C148_gumbel` | C148_CentreOrder.v | A1, A2, A3, A4 |
| `C148_pareto` | C148_CentreOrder.v | A1, A2, A3, A4 |
| `C148_rayleigh` | C148_CentreOrder.v | A1, A2, A3, A4 |
| `C149_categorical_partial` | C149_DiscreteF64.v | A1, A2, A3, A4 |
| `C149_categorical_refuted` | C149_DiscreteF64.v | A1, A2, A3, A4 |
| `C149_geometric` | C149_DiscreteF64.v | A1, A2, A3, A4 |
| `C149_uniform_i64` | C149_DiscreteF64.v | A1, A2, A3, A4 |
| `C14_concentrations_partial` | C11_C17_Params.v | A1, A2, A3, A4 |
| `C14_concentrations_refuted` | C11_C17_Params.v | closed under the global context |
| `C150_arcsine_refuted` | C150_Display.v | A1, A2, A3, A4 |
| `C150_arguments` | C150_Display.v | A1, A2, A3, A4 |
| `C150_bivariate_refuted` | C150_Display.v | A1, A2, A3, A4 |
| `C150_degenerate_refuted` | C150_Display.v | A1, A2, A3, A4 |
| `C150_dirichlet` | C150_Display.v | A1, A2, A3, A4 |
| `C150_display` | C150_Display.v | A1, A2, A3, A4 |
| `C150_folded_normal_refuted` | C150_Display.v | A1, A2, A3, A4 |
| `C150_lognormal_isotropic` | C150_Display.v | A1, A2, A3, A4 |
| `C150_lognormal_refuted` | C150_Display.v | A1, A2, A3, A4 |
| `C150_triangular_refuted` | C150_Display.v | A1, A2, A3, A4 |
| `C150_uniform_i64` | C150_Display.v | A1, A2, A3, A4 |
| `C150_uniform_refuted` | C150_Display.v | A1, A2, A3, A4 |
| `C151_check` | C151_ErrorText.v | closed under the global context |
| `C151_constraint_text` | C151_ErrorText.v | closed under the global context |
| `C151_constructors` | C151_ErrorText.v | A1, A2, A3, A4 |
| `C151_convolve_many` | C151_ErrorText.v | closed under the global context |
| `C151_message` | C151_ErrorText.v | closed under the global context |
| `C151_simplex` | C151_ErrorText.v | A1, A2, A3, A4 |
| `C152_arcsine` | C152_F64Variance.v | A1, A2, A3, A4 |
| `C152_bernoulli` | C152_F64Variance.v | A1, A2, A3, A4 |
| `C152_beta_binomial` | C152_F64Variance.v | A1, A2, A3, A4 |
| `C152_beta_partial` | C152_F64Variance.v | A1, A2, A3, A4 |
| `C152_beta_prime` | C152_F64Variance.v | A1, A2, A3, A4 |
| `C152_beta_refuted` | C152_F64Variance.v | A1, A2, A3, A4 |
| `C152_binomial` | C152_F64Variance.v | A1, A2, A3, A4 |
| `C152_chi_squared` | C152_F64Variance.v | A1, A2, A3, A4 |
| `C152_cosine` | C152_F64Variance.v | A1, A2, A3, A4 |
| `C152_erlang` | C152_F64Variance.v | A1, A2, A3, A4 |
| `C152_exponential` | C152_F64Variance.v | A1, A2, A3, A4 |
| `C152_f_dist` | C152_F64Variance.v | A1, A2, A3, A4 |
| `C152_gamma` | C152_F64Variance.v | A1, A2, A3, A4 |
| `C152_geometric_negative_zero` | C152_F64Variance.v | A1, A2, A3, A4 |
| `C152_geometric` | C152_F64Variance.v | A1, A2, A3, A4 |
| `C152_gpd_refuted` | C152_F64Variance.v | A1, A2, A3, A4 |
| `C152_gumbel` | C152_F64Variance.v | A1, A2, A3, A4 |
| `C152_inverse_gamma` | C152_F64Variance.v | A1, A2, A3, A4 |
| `C152_inverse_normal` | C152_F64Variance.v | A1, A2, A3, A4 |
| `C152_laplace` | C152_F64Variance.v | A1, A2, A3, A4 |
| `C152_logistic` | C152_F64Variance.v | A1, A2, A3, A4 |
| `C152_lognormal_partial` | C152_F64Variance.v | A1, A2, A3, A4 |
| `C152_lognormal_refuted` | C152_F64Variance.v | A1, A2, A3, A4 |
| `C152_normal` | C152_F64Variance.v | A1, A2, A3, A4 |
| `C152_pareto` | C152_F64Variance.v | A1, A2, A3, A4 |
| `C152_poisson` | C152_F64Variance.v | A1, A2, A3, A4 |
| `C152_rayleigh` | C152_F64Variance.v | A1, A2, A3, A4 |
| `C152_student_t` | C152_F64Variance.v | A1, A2, A3, A4 |
| `C152_triangular_refuted` | C152_F64Variance.v | A1, A2, A3, A4 |
| `C152_uniform_i` | C152_F64Variance.v | A1, A2, A3, A4 |
| `C152_uniform` | C152_F64Variance.v | A1, A2, A3, A4 |
| `C153_arcsine_partial` | C153_F64Mean.v | A1, A2, A3, A4 |
| `C153_arcsine_refuted` | C153_F64Mean.v | A1, A2, A3, A4 |
| `C153_bernoulli` | C153_F64Mean.v | A1, A2, A3, A4 |
| `C153_beta_binomial` | C153_F64Mean.v | A1, A2, A3, A4 |
| `C153_beta_prime` | C153_F64Mean.v | A1, A2, A3, A4 |
| `C153_beta` | C153_F64Mean.v | A1, A2, A3, A4 |
| `C153_binomial` | C153_F64Mean.v | A1, A2, A3, A4 |
| `C153_erlang` | C153_F64Mean.v | A1, A2, A3, A4 |
| `C153_exponential` | C153_F64Mean.v | A1, A2, A3, A4 |
| `C153_f_dist` | C153_F64Mean.v | A1, A2, A3, A4 |
| `C153_gamma` | C153_F64Mean.v | A1, A2, A3, A4 |
| `C153_geometric_partial` | C153_F64Mean.v | A1, A2, A3, A4 |
| `C153_geometric_refuted` | C153_F64Mean.v | A1, A2, A3, A4 |
| `C153_gumbel` | C153_F64Mean.v | A1, A2, A3, A4 |
| `C153_inverse_gamma` | C153_F64Mean.v | A1, A2, A3, A4 |
| `C153_lognormal` | C153_F64Mean.v | A1, A2, A3, A4 |
| `C153_pareto_partial` | C153_F64Mean.v | A1, A2, A3, A4 |
| `C153_pareto_refuted` | C153_F64Mean.v | A1, A2, A3, A4 |
| `C153_poisson` | C153_F64Mean.v | A1, A2, A3, A4 |
| `C153_rayleigh` | C153_F64Mean.v | A1, A2, A3, A4 |
| `C153_uniform` | C153_F64Mean.v | A1, A2, A3, A4 |
| `C154_bernoulli` | C154_Accessors.v | A1, A2, A3, A4 |
| `C154_degenerate` | C154_Accessors.v | closed under the global context |
| `C154_multivariate` | C154_Accessors.v | closed under the global context |
| `C154_normal` | C154_Accessors.v | A1, A2, A3, A4 |
| `C154_pairs` | C154_Accessors.v | closed under the global context |
| `C155_frechet_refuted` | C155_F64Samples.v | A1, A2, A3, A4 |
| `C155_frechet` | C155_F64Samples.v | A1, A2, A3, A4 |
| `C155_inv_normal_refuted` | C155_F64Samples.v | A1, A2, A3, A4 |
| `C155_kumaraswamy` | C155_F64Samples.v | A1, A2, A3, A4 |
| `C155_laplace_partial` | C155_F64Samples.v | A1, A2, A3, A4 |
| `C155_laplace_refuted` | C155_F64Samples.v | A1, A2, A3, A4 |
| `C155_laplace` | C155_F64Samples.v | A1, A2, A3, A4 |
| `C155_pairs` | C155_F64Samples.v | A1, A2, A3, A4 |
| `C156_beta_prime_partial` | C156_F64Special.v | A1, A2, A3, A4 |
| `C156_beta_prime_refuted` | C156_F64Special.v | A1, A2, A3, A4 |
| `C156_beta` | C156_F64Special.v | A1, A2, A3, A4 |
| `C156_chi_squared` | C156_F64Special.v | A1, A2, A3, A4 |
| `C156_chi` | C156_F64Special.v | A1, A2, A3, A4 |
| `C156_f_partial` | C156_F64Special.v | A1, A2, A3, A4 |
| `C156_f_refuted` | C156_F64Special.v | A1, A2, A3, A4 |
| `C156_folded_normal` | C156_F64Special.v | A1, A2, A3, A4 |
| `C156_gamma_refuted` | C156_F64Special.v | A1, A2, A3, A4 |
| `C156_gamma` | C156_F64Special.v | A1, A2, A3, A4 |
| `C156_inverse_gamma` | C156_F64Special.v | A1, A2, A3, A4 |
| `C156_levy_partial` | C156_F64Special.v | A1, A2, A3, A4 |
| `C156_levy_refuted` | C156_F64Special.v | A1, A2, A3, A4 |
| `C157_cauchy_partial` | C157_F64Modes.v | A1, A2, A3, A4 |
| `C157_cauchy_refuted` | C157_F64Modes.v | A1, A2, A3, A4 |
| `C157_cosine` | C157_F64Modes.v | A1, A2, A3, A4 |
| `C157_exponential` | C157_F64Modes.v | A1, A2, A3, A4 |
| `C157_geometric` | C157_F64Modes.v | A1, A2, A3, A4 |
| `C157_laplace_refuted` | C157_F64Modes.v | A1, A2, A3, A4 |
| `C157_logistic_refuted` | C157_F64Modes.v | A1, A2, A3, A4 |
| `C157_normal` | C157_F64Modes.v | A1, A2, A3, A4 |
| `C157_pareto_partial` | C157_F64Modes.v | A1, A2, A3, A4 |
| `C157_pareto_refuted` | C157_F64Modes.v | A1, A2, A3, A4 |
| `C157_students_t` | C157_F64Modes.v | A1, A2, A3, A4 |
| `C158_beta_median` | C158_Remaining.v | A1, A2, A3, A4 |
| `C158_erlang` | C158_Remaining.v | A1, A2, A3, A4 |
| `C158_from_normal` | C158_Remaining.v | closed under the global context |
| `C158_lognormal_correlation_partial` | C158_Remaining.v | A1, A2, A3, A4 |
| `C158_lognormal_correlation_refuted` | C158_Remaining.v | A1, A2, A3, A4 |
| `C158_poisson_support` | C158_Remaining.v | A1, A2, A3, A4 |
| `C158_standard` | C158_Remaining.v | A1, A2, A3, A4 |
| `C158_texts` | C158_Remaining.v | closed under the global context |
| `C159_arcsine_refuted` | C159_F64Symmetry.v | A1, A2, A3, A4 |
| `C159_arcsine` | C159_F64Symmetry.v | A1, A2, A3, A4 |
| `C159_beta` | C159_F64Symmetry.v | A1, A2, A3, A4 |
| `C159_cauchy` | C159_F64Symmetry.v | A1, A2, A3, A4 |
| `C159_cosine` | C159_F64Symmetry.v | A1, A2, A3, A4 |
| `C159_folded_normal` | C159_F64Symmetry.v | A1, A2, A3, A4 |
| `C159_logistic_refuted` | C159_F64Symmetry.v | A1, A2, A3, A4 |
| `C159_normal` | C159_F64Symmetry.v | A1, A2, A3, A4 |
| `C159_student_t` | C159_F64Symmetry.v | A1, A2, A3, A4 |
| `C159_triangular_refuted` | C159_F64Symmetry.v | A1, A2, A3, A4 |
| `C159_triangular` | C159_F64Symmetry.v | A1, A2, A3, A4 |
| `C159_uniform` | C159_F64Symmetry.v | A1, A2, A3, A4 |
| `C15_params_new` | C11_C17_Params.v | closed under the global context |
| `C160_bernoulli` | C160_F64Convolution.v | A1, A2, A3, A4 |
| `C160_binomial` | C160_F64Convolution.v | A1, A2, A3, A4 |
| `C160_cauchy` | C160_F64Convolution.v | A1, A2, A3, A4 |
| `C160_gamma_exponential` | C160_F64Convolution.v | A1, A2, A3, A4 |
| `C160_gamma_refuted` | C160_F64Convolution.v | A1, A2, A3, A4 |
| `C160_gamma` | C160_F64Convolution.v | A1, A2, A3, A4 |
| `C160_many_poisson_order` | C160_F64Convolution.v | A1, A2, A3, A4 |
| `C160_many_poisson` | C160_F64Convolution.v | A1, A2, A3, A4 |
| `C160_normal` | C160_F64Convolution.v | A1, A2, A3, A4 |
| `C160_order_refuted` | C160_F64Convolution.v | A1, A2, A3, A4 |
| `C160_overflow_refuted` | C160_F64Convolution.v | A1, A2, A3, A4 |
| `C160_poisson` | C160_F64Convolution.v | A1, A2, A3, A4 |
| `C161_cdf_monotone` | C161_F64Mixture.v | A1, A2, A3, A4 |
| `C161_cdf_refuted` | C161_F64Mixture.v | A1, A2, A3, A4 |
| `C161_cdf` | C161_F64Mixture.v | A1, A2, A3, A4 |
| `C161_moments` | C161_F64Mixture.v | A1, A2, A3, A4 |
| `C161_pdf_refuted` | C161_F64Mixture.v | A1, A2, A3, A4 |
| `C161_pdf` | C161_F64Mixture.v | A1, A2, A3, A4 |
| `C161_variance_refuted` | C161_F64Mixture.v | A1, A2, A3, A4 |
| `C162_cauchy` | C162_F64Quantiles.v | A1, A2, A3, A4 |
| `C162_exponential_refuted` | C162_F64Quantiles.v | A1, A2, A3, A4 |
| `C162_gpd_refuted` | C162_F64Quantiles.v | A1, A2, A3, A4 |
| `C162_medians` | C162_F64Quantiles.v | A1, A2, A3, A4 |
| `C162_normal` | C162_F64Quantiles.v | A1, A2, A3, A4 |
| `C162_uniform` | C162_F64Quantiles.v | A1, A2, A3, A4 |
| `C163_beta_binomial_refuted` | C163_F64Accuracy.v | A1, A2, A3, A4 |
| `C163_constants` | C163_F64Accuracy.v | A1, A2, A3, A4 |
| `C163_counts` | C163_F64Accuracy.v | A1, A2, A3, A4 |
| `C163_scale` | C163_F64Accuracy.v | A1, A2, A3, A4 |
| `C163_shapes` | C163_F64Accuracy.v | A1, A2, A3, A4 |
| `C163_triangular_refuted` | C163_F64Accuracy.v | A1, A2, A3, A4 |
| `C163_uniform_mean` | C163_F64Accuracy.v | A1, A2, A3, A4 |
| `C164_exponential_cdf_refuted` | C164_F64Densities.v | A1, A2, A3, A4 |
| `C164_exponential` | C164_F64Densities.v | A1, A2, A3, A4 |
| `C164_folded_normal` | C164_F64Densities.v | A1, A2, A3, A4 |
| `C164_location` | C164_F64Densities.v | A1, A2, A3, A4 |
| `C164_normal` | C164_F64Densities.v | A1, A2, A3, A4 |
| `C164_pareto` | C164_F64Densities.v | A1, A2, A3, A4 |
| `C164_rational` | C164_F64Densities.v | A1, A2, A3, A4 |
| `C164_rayleigh` | C164_F64Densities.v | A1, A2, A3, A4 |
| `C164_weibull` | C164_F64Densities.v | A1, A2, A3, A4 |
| `C165_beta` | C165_F64GammaDensities.v | A1, A2, A3, A4 |
| `C165_chi` | C165_F64GammaDensities.v | A1, A2, A3, A4 |
| `C165_f_dist` | C165_F64GammaDensities.v | A1, A2, A3, A4 |
| `C165_frechet` | C165_F64GammaDensities.v | A1, A2, A3, A4 |
| `C165_gamma` | C165_F64GammaDensities.v | A1, A2, A3, A4 |
| `C165_inverse_gaussian` | C165_F64GammaDensities.v | A1, A2, A3, A4 |
| `C165_levy` | C165_F64GammaDensities.v | A1, A2, A3, A4 |
| `C165_student_t` | C165_F64GammaDensities.v | A1, A2, A3, A4 |
| `C166_bernoulli_half` | C166_Constants.v | A1, A2, A3, A4 |
| `C166_constants_exact` | C166_Constants.v | A1, A2, A3, A4 |
| `C166_constants_f64` | C166_Constants.v | A1, A2, A3, A4 |
| `C167_binomial` | C167_F64Discrete.v | A1, A2, A3, A4 |
| `C167_geometric` | C167_F64Discrete.v | A1, A2, A3, A4 |
| `C168_cdf` | C168_F64MixtureAccuracy.v | A1, A2, A3, A4 |
| `C168_mean` | C168_F64MixtureAccuracy.v | A1, A2, A3, A4 |
| `C168_pdf` | C168_F64MixtureAccuracy.v | A1, A2, A3, A4 |
| `C169_normal_constant_partial` | C169_F64Fits.v | A1, A2, A3, A4 |
| `C169_normal_constant_refuted` | C169_F64Fits.v | A1, A2, A3, A4 |
| `C169_normal_mean` | C169_F64Fits.v | A1, A2, A3, A4 |
| `C169_normal_order_refuted` | C169_F64Fits.v | A1, A2, A3, A4 |
| `C169_poisson_err` | C169_F64Fits.v | A1, A2, A3, A4 |
| `C169_poisson_order_partial` | C169_F64Fits.v | A1, A2, A3, A4 |
| `C169_poisson_order_refuted` | C169_F64Fits.v | A1, A2, A3, A4 |
| `C169_poisson` | C169_F64Fits.v | A1, A2, A3, A4 |
| `C16_constraints_match_partial` | C11_C17_Params.v | closed under the global context |
| `C16_constraints_match_refuted` | C11_C17_Params.v | A1, A2, A3, A4 |
| `C170_bernoulli_score` | C170_F64Accessors.v | A1, A2, A3, A4 |
| `C170_derived` | C170_F64Accessors.v | A1, A2, A3, A4 |
| `C170_poisson_score` | C170_F64Accessors.v | A1, A2, A3, A4 |
| `C170_standardised` | C170_F64Accessors.v | A1, A2, A3, A4 |
| `C171_entropy` | C171_F64Entropy.v | A1, A2, A3, A4 |
| `C171_geometric_partial` | C171_F64Entropy.v | A1, A2, A3, A4 |
| `C171_geometric_refuted` | C171_F64Entropy.v | A1, A2, A3, A4 |
| `C171_impossible` | C171_F64Entropy.v | A1, A2, A3, A4 |
| `C171_log_likelihood` | C171_F64Entropy.v | A1, A2, A3, A4 |
| `C171_log_pmf` | C171_F64Entropy.v | A1, A2, A3, A4 |
| `C17_entrywise_partial` | C11_C17_Params.v | closed under the global context |
| `C17_psd_refuted` | C11_C17_Params.v | A1, A2, A3, A4 |
| `C18_continuous` | C18_Build.v | closed under the global context |
| `C18_discrete` | C18_Build.v | closed under the global context |
| `C18_special` | C18_Build.v | closed under the global context |
| `C19_choose` | C19_C21_Utils.v | closed under the global context |
| `C19_limit_63` | C19_C21_Utils.v | closed under the global context |
| `C20_factorial` | C19_C21_Utils.v | closed under the global context |
| `C21_log_factorial_partial` | C21_LogFactorial.v | A1, A2, A3, A4 |
| `C21_max_refuted` | C21_LogFactorial.v | closed under the global context |
| `C22_sample_n` | C22_C25_Traits.v | closed under the global context |
| `C23_every_impl_terminates` | C22_C25_Traits.v | closed under the global context |
| `C23_mutual_defaults` | C22_C25_Traits.v | closed under the global context |
| `C23_neither_diverges` | C22_C25_Traits.v | closed under the global context |
| `C23_quartiles` | C22_C25_Traits.v | A1, A2, A3, A4 |
| `C24_exponential_refuted` | C24_C75_Global.v | A1, A2, A3, A4 |
| `C24_kurtosis_partial` | C24_C75_Global.v | A1, A2, A3, A4 |
| `C25_convolve_many_fold` | C22_C25_Traits.v | closed under the global context |
| `C26_uniform_f64` | C26_C33_Continuous.v | A1, A2, A3, A4 |
| `C27_uniform_cdf_f64_partial` | C27_C29_Uniform.v | A1, A2, A3, A4 |
| `C27_wide_refuted` | C27_C29_Uniform.v | A1, A2, A3, A4 |
| `C28_uniform_i64` | C27_C29_Uniform.v | A1, A2, A3, A4 |
| `C29_quantile_partial` | C27_C29_Uniform.v | A1, A2, A3, A4 |
| `C29_quantile_refuted` | C27_C29_Uniform.v | A1, A2, A3, A4 |
| `C30_exponential` | C26_C33_Continuous.v | A1, A2, A3, A4 |
| `C31_exponential_refuted` | C26_C33_Continuous.v | A1, A2, A3, A4 |
| `C31_quantile_inverts_partial` | C26_C33_Continuous.v | A1, A2, A3, A4 |
| `C32_cauchy` | C26_C33_Continuous.v | A1, A2, A3, A4 |
| `C33_logistic` | C26_C33_Continuous.v | A1, A2, A3, A4 |
| `C34_gumbel` | C34_C40_Continuous.v | A1, A2, A3, A4 |
| `C35_frechet_partial` | C34_C40_Continuous.v | A1, A2, A3, A4 |
| `C35_sampling_refuted` | C34_C40_Continuous.v | A1, A2, A3, A4 |
| `C36_gev_partial` | C34_C40_Continuous.v | A1, A2, A3, A4 |
| `C36_gev_refuted` | C34_C40_Continuous.v | A1, A2, A3, A4 |
| `C37_gpd_partial` | C34_C40_Continuous.v | A1, A2, A3, A4 |
| `C37_mean_refuted` | C34_C40_Continuous.v | A1, A2, A3, A4 |
| `C38_kumaraswamy` | C34_C40_Continuous.v | A1, A2, A3, A4 |
| `C39_pareto` | C34_C40_Continuous.v | A1, A2, A3, A4 |
| `C40_mode_refuted` | C34_C40_Continuous.v | A1, A2, A3, A4 |
| `C40_weibull_partial` | C34_C40_Continuous.v | A1, A2, A3, A4 |
| `C41_arcsine` | C41_C47_Continuous.v | A1, A2, A3, A4 |
| `C42_cosine_partial` | C41_C47_Continuous.v | A1, A2, A3, A4 |
| `C42_cosine_refuted` | C41_C47_Continuous.v | A1, A2, A3, A4 |
| `C43_mean_refuted` | C41_C47_Continuous.v | A1, A2, A3, A4 |
| `C43_triangular_partial` | C41_C47_Continuous.v | A1, A2, A3, A4 |
| `C44_laplace_partial` | C41_C47_Continuous.v | A1, A2, A3, A4 |
| `C44_laplace_refuted` | C41_C47_Continuous.v | A1, A2, A3, A4 |
| `C45_rayleigh_partial` | C41_C47_Continuous.v | A1, A2, A3, A4 |
| `C45_rayleigh_refuted` | C41_C47_Continuous.v | A1, A2, A3, A4 |
| `C46_normal_pdf_total` | C41_C47_Continuous.v | A1, A2, A3, A4 |
| `C46_normal` | C41_C47_Continuous.v | A1, A2, A3, A4 |
| `C47_lognormal_partial` | C41_C47_Continuous.v | A1, A2, A3, A4 |
| `C47_lognormal_refuted` | C41_C47_Continuous.v | A1, A2, A3, A4 |
| `C48_bernoulli_f64` | C48_C53_F64.v | A1, A2, A3, A4 |
| `C48_bernoulli` | C48_C55_Discrete.v | A1, A2, A3, A4 |
| `C49_binomial` | C48_C55_Discrete.v | A1, A2, A3, A4 |
| `C50_binomial_modes_partial` | C48_C55_Discrete.v | A1, A2, A3, A4 |
| `C50_binomial_modes_refuted` | C48_C55_Discrete.v | A1, A2, A3, A4 |
| `C50_categorical_support_refuted` | C48_C55_Discrete.v | A1, A2, A3, A4 |
| `C50_support_refuted` | C48_C55_Discrete.v | A1, A2, A3, A4 |
| `C51_geometric` | C48_C55_Discrete.v | A1, A2, A3, A4 |
| `C52_geometric_partial` | C48_C55_Discrete.v | A1, A2, A3, A4 |
| `C52_geometric_refuted` | C48_C55_Discrete.v | A1, A2, A3, A4 |
| `C53_categorical_f64` | C48_C53_F64.v | A1, A2, A3, A4 |
| `C53_categorical` | C48_C55_Discrete.v | A1, A2, A3, A4 |
| `C54_poisson_pmf` | C21_LogFactorial.v | A1, A2, A3, A4 |
| `C54_poisson` | C48_C55_Discrete.v | A1, A2, A3, A4 |
| `C55_bernoulli_bernoulli` | C48_C55_Discrete.v | A1, A2, A3, A4 |
| `C55_binomial_bernoulli` | C48_C55_Discrete.v | A1, A2, A3, A4 |
| `C55_binomial_binomial` | C48_C55_Discrete.v | A1, A2, A3, A4 |
| `C56_cauchy` | C56_Convolution.v | A1, A2, A3, A4 |
| `C56_chi_squared_partial` | C56_Convolution.v | A1, A2, A3, A4 |
| `C56_chi_squared_refuted` | C56_Convolution.v | A1, A2, A3, A4 |
| `C56_gamma_exponential` | C56_Convolution.v | A1, A2, A3, A4 |
| `C56_gamma_partial` | C56_Convolution.v | A1, A2, A3, A4 |
| `C56_gamma_refuted` | C56_Convolution.v | A1, A2, A3, A4 |
| `C56_normal` | C56_Convolution.v | A1, A2, A3, A4 |
| `C57_cdf_exceeds_one_refuted` | C57_C60_Mixture.v | A1, A2, A3, A4 |
| `C57_mixture_cdf_pdf_partial` | C57_C60_Mixture.v | A1, A2, A3, A4 |
| `C57_normal_mixture` | C57_C60_Mixture.v | A1, A2, A3, A4 |
| `C58_higher_moments_panic` | C57_C60_Mixture.v | closed under the global context |
| `C58_mixture_moments` | C57_C60_Mixture.v | A1, A2, A3, A4 |
| `C59_from_params_partial` | C57_C60_Mixture.v | closed under the global context |
| `C59_from_params_refuted` | C57_C60_Mixture.v | closed under the global context |
| `C59_new` | C57_C60_Mixture.v | closed under the global context |
| `C60_component_probability` | C57_C60_Mixture.v | A1, A2, A3, A4 |
| `C60_sample` | C57_C60_Mixture.v | closed under the global context |
| `C61_entropy_refuted` | C61_C64_Normal2.v | A1, A2, A3, A4 |
| `C61_paired_partial` | C61_C64_Normal2.v | A1, A2, A3, A4 |
| `C62_bivariate_partial` | C61_C64_Normal2.v | A1, A2, A3, A4 |
| `C62_entropy_refuted` | C61_C64_Normal2.v | A1, A2, A3, A4 |
| `C63_accepted_partial` | C61_C64_Normal2.v | A1, A2, A3, A4 |
| `C63_degenerate_refuted` | C61_C64_Normal2.v | A1, A2, A3, A4 |
| `C64_bivariate_refuted` | C61_C64_Normal2.v | A1, A2, A3, A4 |
| `C64_grad_mul_partial` | C61_C64_Normal2.v | A1, A2, A3, A4 |
| `C65_diagonal_partial` | C65_C67_MvNormal.v | A1, A2, A3, A4 |
| `C65_diagonal_refuted` | C65_C67_MvNormal.v | A1, A2, A3, A4 |
| `C65_isotropic_partial` | C65_C67_MvNormal.v | A1, A2, A3, A4 |
| `C65_isotropic_refuted` | C65_C67_MvNormal.v | A1, A2, A3, A4 |
| `C66_density_refuted` | C65_C67_MvNormal.v | A1, A2, A3, A4 |
| `C66_general_partial` | C65_C67_MvNormal.v | A1, A2, A3, A4 |
| `C66_mahalanobis_refuted` | C65_C67_MvNormal.v | A1, A2, A3, A4 |
| `C67_correlation_refuted` | C65_C67_MvNormal.v | A1, A2, A3, A4 |
| `C67_default_partial` | C65_C67_MvNormal.v | A1, A2, A3, A4 |
| `C67_users` | C65_C67_MvNormal.v | A1, A2, A3, A4 |
| `C68_dirichlet_partial` | C68_C70_Multivariate.v | A1, A2, A3, A4 |
| `C68_dirichlet_refuted` | C68_C70_Multivariate.v | A1, A2, A3, A4 |
| `C69_log_pmf_partial` | C119_Multivariate.v | A1, A2, A3, A4 |
| `C69_multinomial_partial` | C68_C70_Multivariate.v | A1, A2, A3, A4 |
| `C69_pmf_refuted` | C68_C70_Multivariate.v | A1, A2, A3, A4 |
| `C70_covariance_partial` | C68_C70_Multivariate.v | A1, A2, A3, A4 |
| `C70_diagonal` | C68_C70_Multivariate.v | A1, A2, A3, A4 |
| `C70_symmetry_refuted` | C68_C70_Multivariate.v | A1, A2, A3, A4 |
| `C71_bernoulli` | C71_C79_Fitting.v | A1, A2, A3, A4 |
| `C71_beta_partial` | C71_C79_Fitting.v | A1, A2, A3, A4 |
| `C71_beta_refuted` | C71_C79_Fitting.v | A1, A2, A3, A4 |
| `C71_gamma_refuted` | C71_C79_Fitting.v | A1, A2, A3, A4 |
| `C71_normal_refuted` | C71_C79_Fitting.v | A1, A2, A3, A4 |
| `C71_paired_refuted` | C71_C79_Fitting.v | A1, A2, A3, A4 |
| `C71_poisson_partial` | C71_C79_Fitting.v | A1, A2, A3, A4 |
| `C72_bernoulli_refuted` | C71_C79_Fitting.v | A1, A2, A3, A4 |
| `C72_beta_partial` | C71_C79_Fitting.v | A1, A2, A3, A4 |
| `C72_gamma_partial` | C71_C79_Fitting.v | A1, A2, A3, A4 |
| `C72_gamma_refuted` | C71_C79_Fitting.v | A1, A2, A3, A4 |
| `C72_normal_partial` | C71_C79_Fitting.v | A1, A2, A3, A4 |
| `C72_normal_refuted` | C71_C79_Fitting.v | A1, A2, A3, A4 |
| `C72_paired_partial` | C71_C79_Fitting.v | A1, A2, A3, A4 |
| `C72_poisson_refuted` | C71_C79_Fitting.v | A1, A2, A3, A4 |
| `C73_bernoulli_f64_empty` | C73_F64.v | A1, A2, A3, A4 |
| `C73_bernoulli_f64` | C73_F64.v | A1, A2, A3, A4 |
| `C73_bernoulli` | C71_C79_Fitting.v | A1, A2, A3, A4 |
| `C73_normal` | C71_C79_Fitting.v | A1, A2, A3, A4 |
| `C73_poisson` | C71_C79_Fitting.v | A1, A2, A3, A4 |
| `C74_beta_ends` | C74_C78_Modes.v | A1, A2, A3, A4 |
| `C74_beta_prime` | C74_C78_Modes.v | A1, A2, A3, A4 |
| `C74_beta` | C74_C78_Modes.v | A1, A2, A3, A4 |
| `C74_chi_squared` | C74_C78_Modes.v | A1, A2, A3, A4 |
| `C74_chi` | C74_C78_Modes.v | A1, A2, A3, A4 |
| `C74_f_dist` | C74_C78_Modes.v | A1, A2, A3, A4 |
| `C74_gamma` | C74_C78_Modes.v | A1, A2, A3, A4 |
| `C74_inverse_gamma` | C74_C78_Modes.v | A1, A2, A3, A4 |
| `C74_student_t_inverse_normal` | C74_C78_Modes.v | A1, A2, A3, A4 |
| `C75_outside_support_refuted` | C24_C75_Global.v | A1, A2, A3, A4 |
| `C75_valid_everywhere_partial` | C24_C75_Global.v | A1, A2, A3, A4 |
| `C76_deserialize_err` | C76_Serde.v | closed under the global context |
| `C76_deserialize_ok` | C76_Serde.v | closed under the global context |
| `C76_probability_partial` | C76_Serde.v | closed under the global context |
| `C76_probability_refuted` | C76_Serde.v | A1, A4 |
| `C76_round_trip` | C76_Serde.v | closed under the global context |
| `C76_serialize` | C76_Serde.v | closed under the global context |
| `C77_degenerate_f64` | C41_C47_Continuous.v | A1, A2, A3, A4 |
| `C77_degenerate_i64` | C41_C47_Continuous.v | A1, A2, A3, A4 |
| `C78_guards_partial` | C74_C78_Modes.v | A1, A2, A3, A4 |
| `C78_guards_refuted` | C74_C78_Modes.v | A1, A2, A3, A4 |
| `C78_pareto` | C74_C78_Modes.v | A1, A2, A3, A4 |
| `C79_bernoulli` | C71_C79_Fitting.v | A1, A2, A3, A4 |
| `C79_binomial` | C71_C79_Fitting.v | A1, A2, A3, A4 |
| `C79_exponential_refuted` | C71_C79_Fitting.v | A1, A2, A3, A4 |
| `C79_lognormal_refuted` | C71_C79_Fitting.v | A1, A2, A3, A4 |
| `C79_normal` | C71_C79_Fitting.v | A1, A2, A3, A4 |
| `C79_pareto_partial` | C71_C79_Fitting.v | A1, A2, A3, A4 |
| `C79_pareto_refuted` | C71_C79_Fitting.v | A1, A2, A3, A4 |
| `C79_poisson_refuted` | C71_C79_Fitting.v | A1, A2, A3, A4 |
| `C80_levy_partial` | C41_C47_Continuous.v | A1, A2, A3, A4 |
| `C80_levy_refuted` | C41_C47_Continuous.v | A1, A2, A3, A4 |
| `C81_bernoulli_partial` | C48_C55_Discrete.v | A1, A2, A3, A4 |
| `C81_cdf_refuted` | C48_C55_Discrete.v | A1, A2, A3, A4 |
| `C81_modes_refuted` | C48_C55_Discrete.v | A1, A2, A3, A4 |
| `C82_categorical_cdf_partial` | C48_C55_Discrete.v | A1, A2, A3, A4 |
| `C82_categorical_cdf_refuted` | C48_C55_Discrete.v | A1, A2, A3, A4 |
| `C83_gamma` | C83_C98_GammaFamily.v | A1, A2, A3, A4 |
| `C84_gamma_sample_refuted` | C83_C98_GammaFamily.v | A1, A2, A3, A4 |
| `C85_beta` | C83_C98_GammaFamily.v | A1, A2, A3, A4 |
| `C86_beta_kurtosis_refuted` | C83_C98_GammaFamily.v | A1, A2, A3, A4 |
| `C86_beta_median_all_odd_refuted` | C86_BetaMedians.v | A1, A2, A3, A4 |
| `C86_beta_median_partial` | C83_C98_GammaFamily.v | A1, A2, A3, A4 |
| `C86_beta_median_refuted` | C83_C98_GammaFamily.v | A1, A2, A3, A4 |
| `C87_inverse_gamma` | C83_C98_GammaFamily.v | A1, A2, A3, A4 |
| `C88_inverse_gamma_cdf_partial` | C83_C98_GammaFamily.v | A1, A2, A3, A4 |
| `C88_inverse_gamma_cdf_refuted` | C83_C98_GammaFamily.v | A1, A2, A3, A4 |
| `C89_beta_prime` | C83_C98_GammaFamily.v | A1, A2, A3, A4 |
| `C90_beta_prime_entropy_refuted` | C83_C98_GammaFamily.v | A1, A2, A3, A4 |
| `C90_beta_prime_kurtosis_refuted` | C83_C98_GammaFamily.v | A1, A2, A3, A4 |
| `C90_beta_prime_kurtosis_unguarded_refuted` | C83_C98_GammaFamily.v | A1, A2, A3, A4 |
| `C91_chi` | C83_C98_GammaFamily.v | A1, A2, A3, A4 |
| `C92_chi_entropy_all_refuted` | C94_C101_Ranges.v | A1, A2, A3, A4 |
| `C92_chi_entropy_refuted` | C83_C98_GammaFamily.v | A1, A2, A3, A4 |
| `C93_chi_squared` | C83_C98_GammaFamily.v | A1, A2, A3, A4 |
| `C94_chi_chisq_all_refuted` | C94_C101_Ranges.v | A1, A2, A3, A4 |
| `C94_chi_chisq_together_refuted` | C83_C98_GammaFamily.v | A1, A2, A3, A4 |
| `C95_f_dist_guards` | C94_C101_Ranges.v | closed under the global context |
| `C95_f_dist` | C83_C98_GammaFamily.v | A1, A2, A3, A4 |
| `C96_f_dist_entropy_large_refuted` | C94_C101_Ranges.v | A1, A2, A3, A4 |
| `C96_f_dist_entropy_one_refuted` | C94_C101_Ranges.v | A1, A2, A3, A4 |
| `C96_f_dist_entropy_refuted` | C83_C98_GammaFamily.v | A1, A2, A3, A4 |
| `C96_f_dist_kurtosis_refuted` | C83_C98_GammaFamily.v | A1, A2, A3, A4 |
| `C96_f_dist_kurtosis_unguarded_refuted` | C94_C101_Ranges.v | A1, A2, A3, A4 |
| `C96_f_dist_skewness_refuted` | C83_C98_GammaFamily.v | A1, A2, A3, A4 |
| `C96_f_dist_skewness_unguarded_refuted` | C94_C101_Ranges.v | A1, A2, A3, A4 |
| `C97_erlang_moments` | C83_C98_GammaFamily.v | A1, A2, A3, A4 |
| `C98_erlang_all_refuted` | C94_C101_Ranges.v | A1, A2, A3, A4 |
| `C98_erlang_partial` | C83_C98_GammaFamily.v | A1, A2, A3, A4 |
| `C98_erlang_pdf_refuted` | C21_LogFactorial.v | A1, A2, A3, A4 |
| `C98_erlang_refuted` | C83_C98_GammaFamily.v | A1, A2, A3, A4 |
| `C99_student_t` | C99_C101_StudentT.v | A1, A2, A3, A4 |
