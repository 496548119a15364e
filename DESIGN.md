# Formal model of forcepho: design

Source: bd-j/forcepho as found in /repo (read as text, never run).
Prover: Coq 8.16.1, logical root `Verif`, sources in `rocq/theories`.

## Layout of the development

For every area `X` there are some of these files:

* `XModel.v` – the model. Each definition cites file and lines and says where it
  simplifies. No proofs.
* `XSpec.v` – the vocabulary of the English property, when the statement needs
  more than the inputs and outputs of the model. Written without the model's
  helpers.
* `XFacts.v` and others – lemmas and proofs.
* `XProps.v` – the theorems of the manifest, `Print Assumptions`, and the
  non-vacuity examples beside them.
* `XCase.v` – larger concrete cases that meet the hypotheses of the theorems.

Names: a theorem `…_partial` proves part of its property, `…_refuted` proves
that the property (or one clause of it) is false of the model, with a witness.

Numbers. Indices, flags and counters are `nat` or `Z` (int32 and int16 where
wrapping matters: C07, C26). Floating point is exact arithmetic, `Q`, `Z` or `R`,
except where the property is about floating point: stored pixels (C27, C28),
reference coordinates (C39) and special values of bounds (C33), which use
Flocq's binary formats or an explicit NaN and infinities. Failing calls
(exceptions) are `None`; a nan that the code goes on with is `None` too where the
comment says so.

## Trusted base

* Coq's kernel. No axiom is added and no kernel check is switched off.
* The standard library axioms listed per theorem below. Flocq and Coquelicot are
  used for definitions and lemmas; they bring in no axioms beyond those of the
  standard library (`Classical_Prop.classic` enters through them).
* The reading of the Python, C++ and CUDA text that the models record. Every
  definition cites the lines it stands for.
* The behaviour of numpy, scipy, astropy, h5py, argparse and MPI calls as
  recorded at the definitions. Where a call is not computed (KD tree, splines,
  sampler, solver, sky conversion, gamma functions), it is an argument of the
  theorem with its assumptions as hypotheses.

## What is modelled

| code | models |
| --- | --- |
| superscene.py | SuperScene, Seed, Linked, Angles, Bounds |
| dispatcher.py | Dispatch, End (whether the loop ends) |
| sources.py | Scene, Shear, Angles, Catalog |
| model.py | Stack, Posterior, FastPosterior, Lnlike |
| priors.py | Posterior (ExpBeta) |
| proposal.py, src/*.cc, src/*.cu | Kernel, Gpu, Scene |
| slow/gaussmodel.py, slow/stamp.py | Slow, Wcs |
| slow/likelihood.py | Plan |
| patches/patch.py, pixel_patch.py, device_patch.py | Pack, Device, LinOpt |
| patches/storage.py | Store, Pack, Region, Ident |
| region.py | Region |
| fitting.py | LinOpt, Block, Reflect, Fit, Result |
| tasks.py | Fit |
| postprocess.py, utils/chain.py, utils/io.py | Chain, Combine, Resid, Result, Images |
| utils/wcs.py, utils/profile.py | Wcs, Profile |
| utils/corner.py (quantiles and spans), utils/catalog.py (percentiles) | Quant |
| utils/catalog.py (combining, appending), postprocess.py (flux uncertainties) | Derive |
| config.py | Config |
| mixtures/sersic_mix_oned.py, sources.py (Galaxy splines, amplitudes, profile) | Mog |
| patches/static_patch.py (without build_patch, super-pixels), sources.py (psfgauss) | Static |
| slow/stamp.py (extract_stamp) | Cut |
| slow/stamp.py (all else), slow/likelihood.py (make_image, WorkPlan.make_image) | Stamp |
| superscene.py (writeout, context, rectify_catalog, sourcecat_dtype), postprocess.py (run_metadata, postop_catalog) | State |
| mixtures/psf_mix_em.py, utils_em.py | Em, PsfConv, Start |
| postprocess.py (combined_rhalf, forcepho_slow_model) | Half |
| mixtures/sersic_mix_twod.py (sersic_prediction, sersic_model, get_kernel) | Weight |
| utils/ds9.py, postprocess.py (write_sourcereg), utils/catalog.py (rectify_jades) | Ds9 |
| slow/psf.py, mixtures/psf_mix_hmc.py, demo/demo_psf/make_jwst_psf/make_psf.py | PsfConv, PsfHmc, PsfBlur |
| model.py (constructors, lnprior, check_grad), fitting.py (run_opt_bounded, run_dynesty) | Driver |
| priors.py | Posterior (ExpBeta), Prior |
| dispatcher.py (do_child, dummy_work, messages between parent and children) | Child |
| demo/demo_utils.py (make_stamp, make_scene, galsim_model, make_psfstore, compute_noise_level, write_fits_to), demo_mosaic/mosaic_make_dithers.py | Mock |
| utils/corner.py (histograms, contours, panels, labels, lines) | Corner |
| mixtures/sersic_mix_oned.py (Sersic profile, enclosed light, table), mixtures/utils_hmc.py, mixtures/utils_em.py (ellipses) | Prof |
| demo/demo_mosaic/mosaic_combine_dithers.py, demo_psf/psf_grid_fit.py, psf_one_fit.py (region), psf_grid_plot.py, demo_mosaic/mosaic_plot.py (multispan), demo_pair/pair_movie.py (frames), fitting.py (show_chain) | Demo |
| postprocess.py (Residuals.show, mark_sources, show_exp, chain_pdf, check_multipatch), utils/chain.py (make_statscat), utils/__init__.py (Logger), superscene.py (overlap_circle), fitting.py (run_pymc3) | Report |
| superscene.py (scene_frame, sky_to_scene, scene_coordinates, ingest, searches), with astropy's offset frame | Frame |
| patches/patch.py (dtypes, zerocoords, _pack_astrometry), proposal.py (dtypes), src/compute_gaussians_kernel.cc (ConvolveOneSource 62-95, EvaluateProposal 233-302), src/common_kernel.cc (ComputeResidualImage), in rounded arithmetic | Single |
| src/common_kernel.cc (ComputeResidualImage, GetGaussianAndJacobian), src/compute_gaussians_kernel.cc (CreateImageGaussians, EvaluateProposal), against integrals over pixels | Kernel (theorems in Pixel) |
| src/common_kernel.cc (GetGaussianAndJacobian), src/compute_gaussians_kernel.cc (ConvolveOneSource, CreateImageGaussians), against convolution integrals | Kernel (theorems in Conv and Mix) |
| src/compute_gaussians_kernel.cc (EvaluateProposal, ConvolveOneSource), src/common_kernel.cc (all), as a function of the sources and the data | Kernel (theorems in Twin, Label and Flux) |

## Properties

Each entry: what is modelled and how it is proved; then the status and the
theorems with the file they are in. The English statements are in
properties.jsonl.

### C01 A source is never being fitted in two patches at once (circular scene server)

The server as a state machine: catalog rows with int32 flags, checkout of a
circular patch around any seed, checkin of any outstanding patch. Invariant over
all histories, by induction on the history, with a ghost list of outstanding
patches.

Status: proved. All histories of the circular scene server from any freshly
ingested catalog.

* `SuperSceneProps.v`: `C01_exclusive_checkout`

### C02 Checkout bookkeeping always balances

Same state machine; counters and flags against the ghost list, by induction.

Status: proved.

* `SuperSceneProps.v`: `C02_bookkeeping_balances`
* `SceneSparse.v`: `C02_sparse`

### C03 Check-in writes exactly the returned sources and nothing else

checkin_region column by column; frame (other rows and columns untouched),
commutation of two checkins of disjoint patches, exact success condition. The
fitted columns are named in the specification.

Status: proved.

* `SuperSceneProps.v`: `C03_checkin_frame`, `C03_checkins_commute`,
  `C03_checkin_succeeds_iff`
* `SceneBounds.v`: `C03_looked_up`

### C04 Iteration counts, logs and the stopping test agree with history

Counters and logs after any history, as functions of the events of the history;
reset puts the bookkeeping back.

Status: proved.

* `SuperSceneProps.v`: `C04_counts_and_logs`, `C04_reset`

### C05 Shape of a circular patch

get_circular_scene with a stable argsort over exact distances; sortedness and
permutation lemmas. Exact conditions for refusal and success.

Status: proved.

* `SuperSceneProps.v`: `C05_circular_patch_shape`, `C05_circular_refused_iff`,
  `C05_circular_granted_iff`

### C06 A source in use by an outstanding patch is never marked valid

Histories with a shared fixed source; the valid flag is not counted. Witness and
the part that holds.

Status: partial. The property is false of the code: validity is a flag, not a
count, so the return of a patch that shares a source marks it valid while
another patch still uses it (witness proved). What holds is proved as the
partial theorem.

* `SuperSceneProps.v`: `C06_in_use_not_valid_refuted`,
  `C06_in_use_not_valid_partial`

### C07 Seed weights favour available, under-sampled sources

Seed weights over the reals with bit complement on int32 flags.

Status: partial. The zero-weight clause is false of the code (~ on an int32 flag
gives -2 or -1, both of which mask nothing as intended); witnesses proved.
Probability vector and monotonicity clauses are proved in full.

* `SeedProps.v`: `C07_seed_weights_probability`,
  `C07_seed_weights_favour_undersampled`, `C07_invalid_weight_zero_refuted`,
  `C07_sigmoid_active_weight_zero_refuted`

### C08 Friends-of-friends growth returns exactly the linked set

find_overlaps and grow_source with fuel equal to the number of sources, proved
never to run out; result equals the inductively defined reachable set.

Status: partial. Termination, no repeats and exactness are proved for every
catalog with respect to the overlap search the code performs, and with respect
to true overlap of regions of influence when no radius exceeds the boundary
radius. For wider radii the search misses overlapping sources (witness proved).

* `LinkedProps.v`: `C08_growth_is_reachable_set`, `C08_growth_is_linked_set`,
  `C08_wide_radii_refuted`

### C09 The group catalog is the partition into linked components

make_group_catalog as a loop over rows; groups against the reachability
relation.

Status: partial. Proved when no radius of influence exceeds the boundary radius;
false otherwise (two witnesses proved: overlapping sources in different groups,
and an unused group number).

* `LinkedProps.v`: `C09_group_catalog_partial`, `C09_group_catalog_refuted`

### C10 Shape of a linked patch

grow_scene and checkout_region of the linked server; size, region, fixed and
group clauses.

Status: partial. Size, fixed-source and region clauses for all radii; group
clauses when no radius exceeds the boundary radius; without that the active list
can repeat a source (witness proved).

* `LinkedProps.v`: `C10_linked_patch_shape`, `C10_linked_patch_groups_partial`,
  `C10_active_repeats_refuted`

### C11 A source is never being fitted in two patches at once (linked scene server)

Histories of the linked server; invariant in strict mode, witnesses otherwise.

Status: partial. False of the code in general (two witnesses: group larger than
a patch; radii following the catalog). Proved over all histories for strict mode
with supplied radii inside the boundary radius and groups that fit.

* `LinkedProps.v`: `C11_exclusive_linked_checkout_refuted`,
  `C11_exclusive_linked_checkout_partial`

### C12 Work queue: every child is idle or busy, every task's result is returned once

MPIQueue as parallel lists; the set of completed requests is an input;
conservation of tasks by induction over operations.

Status: proved. MPI is represented by its contract: which requests complete is
an arbitrary input.

* `DispatchProps.v`: `C12_queue_accounting`, `C12_collect_effect`

### C13 Dispatch loop: results are checked in, under their own task, and the loop cannot fail

do_parent as a transition system over an input list of checkout outcomes and
completions. A pass fails in the server exactly when the first seed not refused
is hopeless (invariant: check-ins never fail); no pass fails when catalog and
answers stay compact.

Status: partial. Queue misuse is excluded and every result collected in the loop
is checked in once. The code logs results under the latest task number, not
their own (refuted with a two-child run), and throws away results that arrive
after the loop (refuted). Exactly which passes die in the scene server is proved
(an iff); with compact sources no pass fails at all; a fit that grows a source
past the maximal radius kills every later pass (refuted).

* `DispatchProps.v`: `C13_queue_never_misused`,
  `C13_results_checked_in_partial`, `C13_label_refuted`,
  `C13_stragglers_refuted`
* `DispatchTotal.v`: `C13_server_error_iff`, `C13_no_exception_partial`,
  `C13_server_fails_refuted`

### C14 Setting then reading a scene's parameter vector is the identity

Scene and Source kinds as records; set_params then get_params by induction over
the sources, sizes by kind.

Status: proved. All concrete source kinds in any mixture. The generic base class
cannot be set through a scene at all (refuted for every vector).

* `SceneProps.v`: `C14_set_then_get`, `C14_too_short_fails`, `C14_single_band`,
  `C14_generic_source_refuted`

### C15 The stacked gradient is laid out like the parameter vector

stack_grad against the layout of the parameter vector; the kernel response is an
argument.

Status: proved. Galaxy scenes, the kind the fast kernel takes. The kernel
response is an argument of the theorem; its correctness is C22.

* `SceneProps.v`: `C15_stacked_layout`, `C15_stacked_gradient`

### C16 Bounds, proposals and chain catalogs use the parameter-vector layout

Parameter vector, bounds vectors, proposal struct and chain catalog share one
index formula.

Status: proved. One position s*(n_bands+6)+j in all four.

* `SceneProps.v`: `C16_parameter_vector`, `C16_bounds`, `C16_bounds_exist`,
  `C16_proposal`, `C16_chain_catalog`

### C17 Bounded transform maps onto the open box and is invertible

Logistic transform over the reals: range, inverses, monotone.

Status: proved. Exact real arithmetic.

* `PosteriorProps.v`: `C17_transform_inside`, `C17_inverse_of_transform`,
  `C17_transform_of_inverse`, `C17_increasing`

### C18 The sampled log-posterior gradient is the derivative of the sampled log-posterior

Posterior.evaluate with every transform and switch; derivative by Coquelicot's
is_derive, chain rule over the transform.

Status: proved. All transforms, both settings of the switch; the last theorem is
the fast posterior end to end with the kernel response as an argument.

* `PosteriorProps.v`: `C18_posterior_gradient`, `C18_nll_gradient`,
  `C18_volume_term`
* `FastPosterior.v`: `C18_fast_posterior_gradient`

### C19 Barrier prior gradient is the derivative of the barrier prior

ExpBeta prior: derivative, symmetry, behaviour at the edges.

Status: partial. Gradient and symmetry for every exponent; the barrier shape for
negative exponents, in one parameter and on boxes of any dimension. The
constructor accepts exponents above 0, for which there is no barrier (refuted).

* `PosteriorProps.v`: `C19_barrier_gradient`, `C19_symmetric`,
  `C19_barrier_partial`, `C19_any_exponent_refuted`
* `PriorBox.v`: `C19_sum`, `C19_box_partial`

### C20 Per-pixel kernel derivatives are the derivatives of the per-pixel model

Pixel Gaussian of the kernel: derivatives in mean, covariance, amplitude; sums.

Status: proved. Over the reals, not floating point.

* `KernelProps.v`: `C20_pixel_derivatives`, `C20_rendered_value`, `C20_sums`

### C21 The kernel's chi-square gradient is the derivative of its chi-square in the sky parameters

Whole kernel, function by function (matrix22, CreateImageGaussians,
ConvolveOneSource, gradient accumulation): the returned gradient is the
derivative of the returned likelihood in every parameter, by is_derive through
the source-to-image Jacobian.

Status: proved. Over the reals; at most MAXSOURCES sources; amplitudes need not
be non-zero, the axis ratio only non-zero.

* `KernelProps.v`: `C21_kernel_gradient`, `C21_jacobian`,
  `C21_posterior_gradient`

### C22 Masked and padding pixels never influence the fit

Loop over pixels with mask by inverse error zero: value, no contribution of
masked pixels.

Status: proved. Over the reals.

* `KernelMask.v`: `C22_unmasked_pixels_only`, `C22_chi2_value`,
  `C22_no_extra_gradient`

### C23 The compiled kernel renders the same image as the reference renderer

The Python renderer next to the kernel: images equal up to terms the kernel
drops, equal gradients.

Status: proved. Real arithmetic; PSF mixtures in pixel units, as the device
patch needs. The image is equal up to the terms the kernel drops
(C23_dropped_term says which) and the gradients are equal. For PSFs in arcsec
the two renderers differ (C23_arcsec_psf_refuted).

* `SlowProps.v`: `C23_same_image`, `C23_dropped_term`, `C23_same_gradient`,
  `C23_arcsec_psf_refuted`

### C24 Conformal-shear parameters round-trip and differentiate correctly

ConformalShear: round trips and derivatives, composition with the kernel
gradient.

Status: proved. Real arithmetic. Derivatives hold for every non-round source;
the angle's own derivative needs to be off the half-line where the angle jumps
(C24_pa_on_cut_refuted), but gradients of anything that depends on the angle
modulo pi are right there too, and the kernel is such a thing
(C24_angle_modulo_pi). The fast likelihood never applies the conversion
(C24_fast_gradient_refuted).

* `ShearProps.v`: `C24_qphi_roundtrip`, `C24_eta_roundtrip`, `C24_q_range`,
  `C24_q_derivatives`, `C24_pa_derivatives`, `C24_gradient_conversion`,
  `C24_pa_on_cut_refuted`, `C24_fast_gradient_refuted`
* `ShearKernel.v`: `C24_angle_modulo_pi`

### C25 Packed pixel buffers index back to the original exposures

build_patch packing tables: flat arrays, starts and counts per exposure and
band, by induction over exposures; exact acceptance condition.

Status: proved. Integer tables are unbounded naturals. build_patch is
characterised exactly: it accepts iff the exposures are non-empty, known and
grouped by band. Bands without exposures do not enter the band list.

* `PackProps.v`: `C25_accepts`, `C25_exposures`, `C25_bands`, `C25_split`
* `PackPsf.v`: `C25_padding`

### C26 Super-pixel storage is a rearrangement of the image

Super-pixel layout index arithmetic, int16 coordinates.

Status: proved. Holds for sides up to 32768: coordinates are stored as int16,
and C26_large_image_refuted shows the tables are wrong above that.
C26_region_pixels follows the pixels through StorePatch.find_pixels.

* `StoreProps.v`: `C26_coordinates_match`, `C26_each_pixel_once`, `C26_corners`,
  `C26_region_pixels`, `C26_large_image_refuted`

### C27 Bad pixels are stored with zero weight and finite values

add_exposure per pixel in IEEE arithmetic (Flocq), masks, background,
calibration.

Status: partial. IEEE floats (Flocq) with rounding and special values, image and
store formats arbitrary. Missing: integer masks without a bitmask, for which the
claim is false (C27_integer_mask_refuted).

* `StoreAdd.v`: `C27_stored_pixels_partial`, `C27_refusal`,
  `C27_accepts_any_values`, `C27_integer_mask_refuted`

### C28 S/N cap bounds every pixel's significance and nothing else

_cap_snr over the reals and in any arithmetic. SingleCap repeats it with the
operations of float32 arrays (Flocq): the bound to a part in 2^24, refuted
exactly by data 13 and cap 7.

Status: partial. Bound over the reals for non-negative pixels; idempotence in
any arithmetic. In single precision the bound holds to a part in 2^24 and can be
passed by a rounding. The |data| bound is false for negative pixels
(C28_negative_refuted).

* `StoreCap.v`: `C28_cap_partial`, `C28_idempotent`, `C28_negative_refuted`
* `SingleCap.v`: `C28_single_partial`, `C28_single_refuted`

### C29 Fixed sources are each subtracted exactly once

Device patch as a state machine over buffers; prepare_model and subtract_fixed
on both devices.

Status: partial. Proved over reals on both devices for the first preparation
with absent or non-empty groups of fixed and big sources. Refuted: an empty
catalog of fixed sources raises, and on the CPU a second preparation subtracts
everything a second time.

* `DeviceProps.v`: `C29_subtracted_once_partial`, `C29_blocks`,
  `C29_gpu_refuses_second`, `C29_empty_fixed_refuted`, `C29_cpu_twice_refuted`
* `DeviceShape.v`: `C29_derivatives`

### C30 Linear flux optimisation returns the least-squares fluxes

optimize_one_band and the design matrix: normal equations, least squares minimum
by completing the square over lists, uniqueness, precision; end to end from a
prepared patch.

Status: proved. least squares for one band with any design matrix, weights, data
and fixed image; optimize_fluxes on any prepared patch, both devices, any solver
whose answers solve the system. A zero flux in the given catalog leaves the
design row undefined (refuted).

* `LinOptProps.v`: `C30_least_squares`, `C30_unique`, `C30_precision`,
  `C30_curvature`, `C30_masked`
* `LinOptDevice.v`: `C30_fluxes`, `C30_prepared`, `C30_zero_flux_refuted`
* `LinOptFail.v`: `C30_failure`

### C31 Polygon tests are sound

polygons_overlap (separating axis) and polygon_contains over the reals;
hyperplane separation for convex polygons proved from scratch.

Status: proved. Over the reals. polygons_overlap: False means disjoint for any
polygons; for strictly convex polygons it is True exactly when the hulls meet.
polygon_contains: exact interior test for either orientation of a strictly
convex polygon. Finding: a polygon whose vertices coincide contains every point.

* `RegionProps.v`: `C31_disjoint`, `C31_convex_exact`, `C31_rectangles`,
  `C31_contains_ccw`, `C31_contains_cw`, `C31_contains_hull`,
  `C31_degenerate_refuted`

### C32 Position angles end up in the principal interval

convert_pa as an iterated function on angles; exact sets.

Status: partial. False as stated: the test for angles below the interval
compares with +pi/2, so angles oscillate. Proved: the result always differs by a
multiple of pi; exactly which angles end in the interval for any number of
passes (135 degrees does not); angles already inside stay inside for an even
number of passes, with rotation and reversal; rectify_catalog's rotation lands
in the interval for clip ranges within +-pi.

* `AnglesProps.v`: `C32_multiple_of_pi`, `C32_principal_iff`,
  `C32_kept_partial`, `C32_unwrapped_refuted`, `C32_rectify_rotate`

### C33 Generated bounds contain the catalog and the check detects violations

make_bounds, check_bounds, bounds_vectors, adjust_bounds with special values.

Status: partial. The widths of all bounds are stated, by flux, uncertainty and
arcseconds. The check is exact and reports a column with a violation; bounds
vectors agree with it. Generated bounds contain positions always, fluxes exactly
when they are not zero (or have a positive uncertainty). False for a zero flux,
for shapes let pass by rectify_catalog's defaults, and after adjust_bounds,
which puts every flux below its lower bound. Infinities (unc1 = 0) and
broadcasting of one-row catalogs are left out.

* `BoundsProps.v`: `C33_check_exact`, `C33_generated_iff_partial`,
  `C33_precision`
* `BoundsMore.v`: `C33_vectors`, `C33_adjust_widens`, `C33_zero_flux_refuted`,
  `C33_default_ranges_refuted`, `C33_adjust_refuted`
* `BoundsWidth.v`: `C33_flux_width`, `C33_zero_width`, `C33_widths`,
  `C33_default_shapes`, `C33_missing_column`

### C34 Per-source covariance blocks survive assembly and extraction

Block-diagonal assembly and extraction of covariance blocks.

Status: proved. Blocks of an assembled covariance are the ones put in, for any
number and size of blocks.

* `BlockProps.v`: `C34_extract`, `C34_assembled`, `C34_round_trip`,
  `C34_returned_unchanged`

### C35 Chain catalogs hold every sample of every parameter once

make_chaincat and get_sample_cat: round trip of a sample.

Status: proved.

* `SceneProps.v`: `C35_chain_catalog_exists`, `C35_sample_roundtrip`

### C36 Momentum reflection keeps trajectories inside the box

Reflection loop over the reals, termination by a measure, bounced path.

Status: proved. Over the reals. The loop terminates for every start when lower <
upper (finite or infinite); the result is the bounced path and the sign counts
bounces. With lower = upper, outside the claim, the loop never ends.

* `ReflectProps.v`: `C36_reflects`, `C36_inside_untouched`, `C36_parity`,
  `C36_degenerate_box`

### C37 Configuration precedence

Namespaces as association lists, argv tokens as strings, argparse's prefix rule,
YAML file as an association list.

Status: partial. Proved for options written in full and apart from their value;
the exact rule is proved for every spelling. False for '--k=v' and
abbreviations, which are parsed and then dropped.

* `ConfigProps.v`: `C37_exact_partial`, `C37_precedence_partial`,
  `C37_joined_refuted`, `C37_abbreviation_refuted`,
  `C37_joined_config_file_refuted`, `C37_read_config_refuted`, `C37_rectified`,
  `C37_store_directory_refuted`, `C37_bounds_kwargs`, `C37_store_path`
* `ConfigStrict.v`: `C37_stray`, `C37_unknown`, `C37_count`

### C38 Posterior evaluations are never stale

Posterior cache as a state machine with arrays on a heap (identity and
contents).

Status: partial. Fresh for every history in which passed arrays and returned
gradients are not written to and switches are followed by a new vector; each of
these provisos is shown to be needed.

* `PosteriorProps.v`: `C38_answers_fresh_partial`,
  `C38_stale_after_inplace_change_refuted`, `C38_stale_after_switch_refuted`,
  `C38_stale_after_prior_change_refuted`, `C38_shared_gradient_refuted`,
  `C38_first_vector_refuted`

### C39 Coordinate zero-pointing is reversible

Reference coordinates: real arithmetic for all histories, binary64 (Flocq) for
one shift; the median by its order property.

Status: partial. Exact over the reals for every history of preparations. In
binary64 exact when a coordinate is within a factor two of the reference,
refuted otherwise. Without active sources the recorded reference is the origin.

* `DeviceZero.v`: `C39_unzero_zero`, `C39_prepare`, `C39_repeat`,
  `C39_no_active_refuted`
* `DeviceFloat.v`: `C39_float_exact`, `C39_float_refuted`
* `LinOptDevice.v`: `C39_linear_optimize_refuted`
* `MedianProps.v`: `C39_reference`

### C40 Combined residual images and catalogs take the latest patch for each pixel or source

fill_images, postsample_catalog, find_multipatch as folds over patches.

Status: partial. Images: proved when all pixels lie in their image; false with
padding pixels at (-1,-1), which are written over the last pixel, and for the
shared default dictionary. Catalogs: proved for every run in order;
find_multipatch is right only when patches were logged in the order of their
ids.

* `CombineProps.v`: `C40_images_partial`, `C40_padding_refuted`,
  `C40_leaked_shape_refuted`, `C40_shared_default_refuted`
* `CombineCat.v`: `C40_populate`, `C40_catalog`, `C40_patches_argument_refuted`,
  `C40_multipatch_partial`, `C40_multipatch_refuted`

### C41 Packed PSF tables serve every exposure the right Gaussians

_pack_psf offset tables.

Status: proved. Holds when the store's n_psf_per_source attribute is the length
of the band's tables. The code only checks the grand total:
C41_mixed_lengths_refuted shows attributes that cancel across bands are accepted
and give wrong rows.

* `PackPsf.v`: `C41_psf_rows`, `C41_mixed_lengths_refuted`

### C42 Exposure search misses no overlapping exposure

Region classes and the exposure searches of the patches, real arithmetic with an
abstract sky conversion.

Status: partial. False as stated of the code, with witnesses: a StorePatch opens
its metadata without WCS and then finds no exposure at all; a region whose box
surrounds the image, a circle away from the super-pixel corners, a region
crossing the image and a point in a non-square image are missed. Proved: exactly
what is found; for circles the exposures and pixels inside by half a super-pixel
diagonal, given a box corner in the image; for square images the point search is
exact and its cache does not change answers. For rectangles, the exposures and
pixels with the sky within half a super-pixel inside, given a corner of the
rectangle in the image.

* `SearchProps.v`: `C42_found`, `C42_circle_partial`, `C42_lazy_wcs_refuted`,
  `C42_surrounded_refuted`, `C42_small_circle_refuted`, `C42_crossing_refuted`
* `SearchMeta.v`: `C42_meta_square_partial`, `C42_meta_inside_partial`,
  `C42_meta_refuted`
* `RegionBox.v`: `C42_bounding_box`
* `SearchRect.v`: `C42_rectangle_partial`, `C42_rectangle_margin`,
  `C42_small_rectangle_refuted`
* `FitsCheck.v`: `C42_fits_check`

### C43 GPU warp reduction equals the sequential sum

GPU kernel: warps, shuffle tree with FULL_MASK, atomic additions in any order,
equal to the CPU loop.

Status: proved. Real arithmetic, one block per band, arbitrary order of atomic
additions and writes. Needs a block of whole warps and exposures padded to 32
pixels; C43_unpadded_refuted shows the second condition cannot be dropped,
C43_accumulator_in_range that the first cannot. The residual image needs
neither.

* `GpuProps.v`: `C43_gpu_equals_cpu`, `C43_gpu_runs`, `C43_same_residuals`,
  `C43_accumulator_in_range`, `C43_unpadded_refuted`

### C44 Parameter indices of one source select that source's parameters

Scene.param_indices next to the parameter vector.

Status: partial. Holds when every source is active; with an inactive source in
front the indices are another source's (witness).

* `SceneProps.v`: `C44_indices_of_active_source`, `C44_fixed_source_refuted`

### C45 Each source is rendered with the PSF packed for it

PSF tables per source next to what the kernel reads.

Status: partial. True only when all sources share a band's table (as PSFStore
always gives). With per-source tables the kernel reads the first source's rows:
refuted.

* `PackPsf.v`: `C45_shared_psf_partial`, `C45_store_ignores_position`,
  `C45_per_source_psf_refuted`
* `KernelPsf.v`: `C45_kernel_reads_first_refuted`

### C46 Storing an exposure again stores the same data

add_exposure twice with the arrays it changes in place.

Status: partial. True without background and calibration; with a background the
second call subtracts it again because the arrays are changed in place.

* `StoreCap.v`: `C46_store_again_partial`, `C46_background_refuted`

### C47 Fitting a PSF image by expectation maximisation improves it and keeps its moments

Expectation maximisation: Jensen's inequality and Gibbs' inequality over finite
sums, maximum of the Gaussian log-likelihood.

Status: partial. Proved over the reals: a pass never lowers the likelihood when
the amplitudes sum to at most one, which every pass after the first satisfies;
any answer is a proper mixture; moments of the image are reproduced by each
pass. False of the code: the first pass may lower the likelihood (random
amplitudes sum above one), and a fit that does not converge within the limit
returns nothing at all.

* `EmProps.v`: `C47_density`, `C47_pass_never_lowers`,
  `C47_likelihoods_never_decrease_partial`, `C47_answer_sound`,
  `C47_moments_preserved`, `C47_first_pass_refuted`, `C47_no_answer_refuted`
* `EmRepeat.v`: `C47_repeats`

### C48 Stored astrometry reproduces the image's world coordinate system near each source

scale_at_sky with an abstract sky conversion: exact for affine ones, limit for
differentiable ones.

Status: partial. Exact for affine world coordinates, in the limit for
differentiable ones. False of the code where right ascension wraps between 0 and
360, and when a different number of positions than sources is converted (the
first source's matrix is used for all).

* `WcsProps.v`: `C48_linear_exact`, `C48_scale_in_arcsec`, `C48_limit`,
  `C48_branches_agree`, `C48_ra_wrap_refuted`, `C48_packed_position`,
  `C48_moved_position`, `C48_stored_sources`, `C48_stored_affine`,
  `C48_first_source_refuted`, `C48_stamp_round_trip`

### C49 Residuals written to a file are read back per exposure unchanged

write_residuals and Residuals.make_exp with the file as a table from names to
arrays.

Status: partial. Proved for distinct exposure paths. False of the code for a
repeated path: the second exposure's arrays are silently dropped.

* `ResidProps.v`: `C49_round_trip`, `C49_images`, `C49_too_few_residuals`,
  `C49_duplicate_refuted`

### C50 Sersic profile helpers agree with the Sersic law

Sersic helpers over the reals with the special functions as arguments that
satisfy their calculus (derivative and limits); integrals by RInt.

Status: partial. Proved over the reals for any functions with the derivative and
limits of the incomplete gamma function, shown to exist for every whole index.
False of the code: the Kron radius with a maximum radius misses the ratio of the
complete gamma functions; a brightness above the central one still gets a radius
when the index is a whole number.

* `ProfileProps.v`: `C50_fraction`, `C50_flux`, `C50_flux_radius`,
  `C50_isophote`, `C50_kron`, `C50_kron_rmax_partial`
* `ProfileCase.v`: `C50_isophote_refuted`, `C50_kron_rmax_refuted`

### C51 The reference likelihood is minus half the chi-square and its gradient is its derivative

WorkPlan and FastWorkPlan over Gaussians of the C23 model, the index arrays of
plan_sources, the shared keyword dictionary as state; derivatives with
Coquelicot through C22's Gaussian Jacobian, then sums over pixels, sources and
plans.

Status: partial. Value and gradient proved for scenes of galaxies and stars
without fixed sources; with fixed sources the claim is refuted for WorkPlan and
for scenes holding a fixed source, and the shared keyword dictionary makes the
outcome depend on the order of plans. For galaxies in conformal shear the value
is right (C51_any_value, any classes) and the gradient entry of eta_+ is
refuted: it is the derivative in the axis ratio.

* `PlanProps.v`: `C51_render_gradient`, `C51_plans_agree`, `C51_fast_value`,
  `C51_unit_amplitudes`, `C51_value`, `C51_gradient`,
  `C51_fixed_sources_refuted`
* `PlanShear.v`: `C51_any_value`, `C51_shear_refuted`
* `PlanNeg.v`: `C51_negative`
* `PlanCase.v`: `C51_fixed_scene_refuted`, `C51_shared_keyword_refuted`

### C52 Fits report what they found and hand it on inside the bounds

run_opt, run_lmc, get_pot, get_map and the optimize and sample tasks with the
optimiser, sampler, Cholesky test, pseudo-inverse and random draw as arguments;
contracts of one call as hypotheses; the hand-off through C16 (bounds), C33
(flux bounds) and C35 (chain catalogs).

Status: partial. Bounds, counts, optimality, mass matrix and hand-off proved for
optimisers and samplers keeping their contract. False of the code: the reported
log probability is half of it, later warmup windows are ignored, the mass matrix
may stay indefinite after five tries, get_map maximises the density in the
unbounded variables, and a singular band in the linear step breaks the task.

* `FitProps.v`: `C52_optimum`, `C52_stationary`, `C52_lnp_partial`,
  `C52_lnp_refuted`, `C52_volume_kept_refuted`, `C52_chain`,
  `C52_warmup_refuted`, `C52_map`, `C52_mass`, `C52_mass_kept`,
  `C52_mass_default`, `C52_mass_refuted`, `C52_variance`
* `FitStart.v`: `C52_start`
* `FitCase.v`: `C52_map_refuted`
* `FitHand.v`: `C52_handoff`, `C52_handoff_fluxes`, `C52_task_optimum`,
  `C52_singular_refuted`

### C53 Percentiles and error bars summarise the samples they are given

np.percentile as linear interpolation between order statistics of an insertion
sort, np.interp over the weighted cumulative distribution, argsort as an
argument; order statistics by counting, invariance by uniqueness of the sorted
permutation.

Status: partial. Everything about unweighted percentiles, spans and catalogs is
proved. Weighted quantiles stay within the samples, increase, depend on weight
ratios only and agree with the unweighted ones for equal weights; that every
sample's weight counts is refuted: the weight of the largest sample is never
used.

* `QuantProps.v`: `C53_percentile`, `C53_order`, `C53_monotone`, `C53_ends`,
  `C53_counts`, `C53_affine`, `C53_weighted`, `C53_weighted_found`,
  `C53_equal_weights`, `C53_weight_scale`, `C53_last_weight_refuted`,
  `C53_spans`, `C53_catalog`
* `QuantPlace.v`: `C53_weighted_place`
* `QuantCase.v`: `C53_heavy_refuted`

### C54 Catalogs derived from fits keep the flux, the sources and the uncertainties

combine_chains over rows of chains with ids text or integer (decimal text from
the standard library), append_catalogs over lists of named tables,
flux_unc_linear over the C33 flux bounds and the C40 row assignment; folds over
groups, files and patches.

Status: partial. Proved for text ids, named extensions and runs with precision
matrices in every patch. Refuted: integer ids are never found, group names are
rewritten as floats, right ascension is averaged across the wrap, unnamed
extensions fail or are shifted by one, a patch without precision matrices fails
the whole run, and the default uncertainty does not respect snr_max.

* `DeriveProps.v`: `C54_combined`, `C54_header`, `C54_conserved`, `C54_order`,
  `C54_position`, `C54_integer_ids_refuted`, `C54_names_refuted`,
  `C54_wrap_refuted`
* `DeriveUnc.v`: `C54_append`, `C54_append_unnamed_refuted`,
  `C54_append_shifted_refuted`, `C54_uncertainties`, `C54_snr`, `C54_default`,
  `C54_default_snr_refuted`, `C54_zero_flux_refuted`, `C54_missing_refuted`

### C55 A saved result is loaded as it was

dump_to_h5, read_from_h5, _reconstruct, Result(filename), fill and write_to_disk
over lists of attributes; what h5py accepts as dataset or attribute is modelled
from its documentation; make_chaincat and get_sample_cat are arguments (C35);
induction over the attributes.

Status: partial. Proved: a completed save followed by a load gives every
attribute back or names it in the messages; arrays of numbers or bytes, numbers
and text are never lost; loaded names, region and chain catalog; a filled result
written and loaded; loading and saving again changes nothing. Refuted of the
code: None and large lists are lost without notice after write_to_disk, arrays
of text abort the save, arrays without dimensions make the file unreadable, bare
file names raise, rectangular regions are not restored, lists of names change
type with every save. h5py is modelled from its documentation.

* `ResultProps.v`: `C55_saved`, `C55_kept`, `C55_complete`, `C55_none_refuted`,
  `C55_large_list_refuted`, `C55_text_array_refuted`,
  `C55_scalar_array_refuted`, `C55_bare_name_refuted`
* `ResultLoad.v`: `C55_loaded`, `C55_again`, `C55_rectangle_refuted`
* `ResultTask.v`: `C55_task`, `C55_names_refuted`
* `ResultFill.v`: `C55_filled`

### C56 Images and region files of a run cover every exposure and patch

write_images over the C40 images with a disk as a list of named files; the three
dictionaries are projections of one filled with triples; file names by string
lemmas; write_patchreg with an insertion sort by code points; residual_pdf as
the list of its pages.

Status: partial. Proved for runs whose exposures have different base names;
exposures of equal base name overwrite each other (refuted). Patch circles are
complete but labelled by rank of file name (refuted); pages omit the patches
after the last full page (refuted).

* `ImagesProps.v`: `C56_images_partial`, `C56_names`
* `ImagesCase.v`: `C56_same_name_refuted`, `C56_patch_regions`,
  `C56_labels_refuted`, `C56_pages_partial`, `C56_pages_refuted`

### C57 Catalogs and names of a scene identify its sources and parameters

rows as name-value lists that a fold of stores turns into a function of the
columns; reading back by cases on the class; single precision by Flocq's
binary32; names split at the last underscore.

Status: partial. Proved for scenes of Galaxy (free or fixed profile) or
ConformalShearGalaxy with common filters; values come back rounded to single
precision, exactly when they are representable. Refuted: the other classes
cannot be read, fixed marks are lost, unknown extra columns are zeros, positions
move by up to 0.055 arcsec, names do not match the vector of a fit when a source
is fixed.

* `CatalogProps.v`: `C57_written`, `C57_round_trip_partial`, `C57_stable`,
  `C57_exact`
* `CatalogMore.v`: `C57_class_refuted`, `C57_lost_refuted`,
  `C57_position_error`, `C57_position_refuted`, `C57_ids`, `C57_names_distinct`,
  `C57_names_aligned`, `C57_names_fit_refuted`

### C58 The PSF that is used is the mixture that was fitted

exact rewriting of the bivariate gaussian density under the change of
coordinates; dictionaries of the sampler as finite maps with a fold for the
negative components; permutation of the sorted gaussians; blurring by first and
second derivatives (Coquelicot) and the heat equation.

Status: partial. Equality of the densities proved for the EM fits, the sampled
fits, rescaling and blurring (heat equation). Refuted: tables of non-square
images are shifted, files written by psf_mixture and make_psf cannot be read by
get_psf, the PSF made from a width alone has the wrong width, fits of one
gaussian cannot be stored.

* `PsfConvProps.v`: `C58_detector`, `C58_reshape`, `C58_parameters`,
  `C58_newstyle_partial`, `C58_newstyle_refuted`, `C58_files_refuted`,
  `C58_fwhm_refuted`
* `PsfHmcProps.v`: `C58_stored`, `C58_flux`, `C58_order`,
  `C58_one_gaussian_refuted`, `C58_overwrite`, `C58_combined`, `C58_image`,
  `C58_scaled`
* `PsfMeta.v`: `C58_shape`
* `PsfBlur.v`: `C58_blur`

### C59 Exposures keep their identity, headers and pixels

paths as strings, with the parts of a path as a list and prefixes of lists for
the groups of the file; induction over the sequence of added exposures with the
invariant that groups are equal or apart; dictionaries of dictionaries as finite
maps.

Status: partial. Proved for files whose path does not repeat the name of the
frame directory or of the extension and of which none is named like a directory
of another. Refuted without these: names collide, adding one exposure deletes
another; generalized WCS of an older file are read, or dropped.

* `IdentProps.v`: `C59_identity`, `C59_distinct`, `C59_distinct_refuted`,
  `C59_band`, `C59_pixels`, `C59_deleted_refuted`, `C59_sizes`, `C59_capitals`
* `IdentMeta.v`: `C59_headers`, `C59_file`, `C59_gwcs_partial`,
  `C59_gwcs_refuted`, `C59_table`, `C59_flux`
* `IdentRun.v`: `C59_run`

### C60 A galaxy has the light of the Sersic profile fitted for it

the table as a list of rows over the product of the grids; np.unique as
insertion into a sorted list, unique by extensionality of sorted lists; splines
as arguments that interpolate and are combinations of the data with weights
adding up to one (their rounding error enters as a bound); derivatives and
integrals over the plane with Coquelicot.

Status: partial. Proved for grids strictly increasing as stored, derivatives
inside the table, and totals everywhere. Refuted: tables with descending grids,
derivatives beyond the largest radius, continuity at the smallest index, and a
smoothness penalty that ignores level amplitudes.

* `MogProps.v`: `C60_table`, `C60_descending_refuted`, `C60_repeated`,
  `C60_total`, `C60_below`, `C60_jump_refuted`, `C60_gradient`,
  `C60_edge_refuted`
* `MogLive.v`: `C60_opens`
* `MogFlux.v`: `C60_point`, `C60_mixture`, `C60_growth`, `C60_misfit`,
  `C60_smooth_refuted`, `C60_profile`, `C60_stored`

### C61 A patch made of postage stamps holds every stamp and every source

invariant of the packing loop (done blocks, then zeros; counts of the bands by
rank); closed form of the PSF table for declared numbers of gaussians, with the
allocated length shown to be enough; refutations for all scenes (masks, fixed
sources, turning back) or by a witness (last exposure unchecked, unset
gaussians, reference of the first source).

Status: partial. Layout of pixels, bands, PSF gaussians and matrices proved for
all stamps and scenes of active sources that have the declared numbers of
gaussians; such scenes always make a patch. Refuted: masks, fixed sources, the
check of the number of gaussians in the last exposure, references of sources
after the first, turning a patch back into stamps.

* `StaticProps.v`: `C61_pixels`, `C61_bands`, `C61_psf`, `C61_built`,
  `C61_unsorted`, `C61_astrometry`, `C61_mask_refuted`, `C61_fixed_refuted`,
  `C61_back_refuted`, `C61_sizes`, `C61_gaussians`
* `StaticCase.v`: `C61_last_refuted`, `C61_unset_refuted`,
  `C61_reference_refuted`, `C61_single`
* `StaticMeta.v`: `C61_counts`

### C62 A stamp's pixels, its file and its model image agree

arrays as lists of rows, with index lemmas for ravel, reshape and transpose at
every pixel; the header and the replaced matrix over the reals, where writing
moves a position because the cosine of the declination one pixel off is not one;
the image by the closed forms of the residual arrays of C51, per pixel.

Status: partial. Layout of pixels, the file and the image of all active sources
proved for all stamps and scenes. Refuted: writing leaves the stamp as it was,
images show fixed sources, selections, and the two ways of making an image
agree.

* `StampProps.v`: `C62_grid`, `C62_written`, `C62_writable`, `C62_again`,
  `C62_moved_refuted`, `C62_new_refuted`
* `StampShow.v`: `C62_image`, `C62_fixed_refuted`, `C62_selection_refuted`,
  `C62_sign_refuted`

### C63 The state of a run survives on disk and starts the next run

files as a map from paths; lemmas on replacing text in strings (endings,
slashes, lengths); the log of the histories of C04 through the injective decimal
text of the keys; band names through split and strip; each row of the next
catalog against the row it comes from.

Status: partial. Proved for paths with .fits only at the end, catalogs inside
the ranges of rectify_catalog and one FITS file in the directory. Refuted: other
file and directory names, radii below 0.051, several FITS files, runs without
patch 0, raw catalogs without .fits.

* `StateProps.v`: `C63_written`, `C63_metadata`, `C63_next`,
  `C63_overwritten_refuted`, `C63_directory_refuted`, `C63_clipped_refuted`,
  `C63_patch0_refuted`, `C63_raw_refuted`
* `StateLive.v`: `C63_made`
* `StateCase.v`: `C63_order_refuted`
* `StateMore.v`: `C63_elsewhere`, `C63_beside`, `C63_first`, `C63_ranges`

### C64 A posterior can be built, asked, checked and fitted by every driver

objects as records with missing attributes; the truth tables of the constructor;
the cache machine of C38 with a new address per copy, by induction on the
coordinates; Taylor-Lagrange on both sides for the central difference; the
optimiser and dynesty as arguments with contracts.

Status: partial. Construction, evaluation of the fast posterior, the gradient
check and the nested sampler's box are proved; refuted of the code: boxes with
zero bounds, the slow posterior without a prior and its nll, the default bounds
and the space of run_dynesty, the bounds of run_opt_bounded.

* `DriverProps.v`: `C64_built`, `C64_fast`, `C64_slow_partial`,
  `C64_check_grad`, `C64_check_error`, `C64_dynesty`, `C64_dynesty_uniform`,
  `C64_bounded_partial`, `C64_zero_bounds_refuted`, `C64_slow_refuted`,
  `C64_slow_nll_refuted`, `C64_dynesty_scene_refuted`,
  `C64_dynesty_default_refuted`, `C64_bounds_refuted`
* `DriverLive.v`: `C64_dynesty_runs`

### C65 Priors are what their names say and are drawn from as they are evaluated

the inverse of the distribution function through atan and tan, for scales of
either sign; the density integrated with Coquelicot's fundamental theorem; the
threshold of the unit number against the ratio of integrals.

Status: partial. Draws lie in the given interval and follow the truncated Cauchy
law; the flat prior and the exponents of ExpBeta are as stated. Refuted of the
code: the range of the prior is not used by its draws, values outside the range
count as inside, named priors are flat, Barrier cannot be built.

* `PriorProps.v`: `C65_range`, `C65_law`, `C65_flat`, `C65_expbeta`,
  `C65_own_range_refuted`, `C65_outside_refuted`, `C65_density_refuted`,
  `C65_barrier_refuted`

### C66 A parallel run answers every task and ends

parent and children as processes with mailboxes; an invariant over all
interleavings (an idle child has empty mailboxes and listens; a busy one has its
task waiting, in hand, answered or crashed), a weight that every step of a child
lowers, and a simulation into the queue histories of C12.

Status: partial. The protocol is proved for every interleaving and any work that
answers. Refuted of the code: the work a child does raises for every task, and a
submission with the default tag loses a child.

* `ChildProps.v`: `C66_answers`, `C66_refines`, `C66_listening`, `C66_one_task`,
  `C66_waiting`, `C66_stops`, `C66_crash`, `C66_content`, `C66_child_refuted`,
  `C66_dummy_refuted`, `C66_default_tag_refuted`
* `ChildStrict.v`: `C66_form`

### C67 A PSF mixture fit starts from the image and returns its best repeat

moments as sums over pixels, the correlation bounded by Cauchy-Schwarz; the fold
of the start over its residual images by induction; answers through the
invariant of the repeats of C52; an array shared between answers as an index
into a heap read at the end.

Status: partial. The single-component start, the answers that report a
likelihood and the choice by least residual are proved. Refuted of the code:
further components of the start, least-squares fits, answers sharing the
starting array, nan residuals.

* `StartProps.v`: `C67_moments`, `C67_easy_start`, `C67_easy_defined`,
  `C67_greedy_refuted`, `C67_answers`, `C67_least`, `C67_greedy_repeats`,
  `C67_least_squares_refuted`, `C67_shared_start_refuted`, `C67_nan_refuted`

### C68 Catalogs exchanged with other tools keep the place, size, shape and orientation of sources

offsets on the sky in arcsec; the quadratic form of every image Gaussian reduced
to the elliptical radius through T = D R S; the outline of a region (full axes,
angle from the longitude axis, as in the regions package) parametrised by an
angle and compared with the contour as a set of points; module names as lists
for the undefined functions.

Status: partial. Number, order, position and labels of the regions are proved,
and what exactly is drawn. Refuted of the code: size and orientation of the
outlines, the written region file, the documented meaning of q and pa, the
conversion of survey tables.

* `Ds9Props.v`: `C68_isophotes`, `C68_regions`, `C68_regions_defined`,
  `C68_annotate`, `C68_outline`, `C68_axes`, `C68_size_refuted`,
  `C68_turned_refuted`, `C68_documented_refuted`, `C68_sourcereg_refuted`,
  `C68_place_refuted`, `C68_jades_refuted`

### C69 The half-light radius measured for a fitted group of sources holds half of its light

the radius as the interpolation of a cumulative sum over a list sorted by
distance, split at the first entry that passes one half; sums over the sorted
list moved to the pixels by permutation; the rendered image by induction over
the catalog; its sign from the determinant and trace of the inverse of 1 + S;
the loop over the chain by induction with the stamp as state.

Status: partial. The radius, its samples, the image and the invariances are
proved. Refuted of the code: independence of the order of equidistant pixels,
the band argument, the caller's stamp unchanged.

* `HalfProps.v`: `C69_half`, `C69_half_defined`, `C69_units`, `C69_place`,
  `C69_image`, `C69_positive`, `C69_radii`, `C69_chain_half`,
  `C69_band_refuted`, `C69_stamp_refuted`
* `HalfLive.v`: `C69_radii_made`
* `HalfCase.v`: `C69_ties_refuted`

### C70 A galaxy profile fitted with free Gaussian weights has a proper prior, and the fitted parameters predict the fitted model

matrices as functions of two indices, np.linalg.inv as an argument with its
specification (an elimination meeting it is constructed in WeightCase); positive
definiteness for every size by induction along the diagonals, by the Gram form
of an inverse, and for the squared exponential by its power series and the
vanishing of all moments; the light of a component by an antiderivative; the
model as the list of its sites and its mean.

Status: partial. The smooth priors, the light of the components and the
prediction of free parameters are proved. Refuted of the code: the triangular
prior at its default scale, parameters held fixed, free shear and negative
Gaussians.

* `WeightProps.v`: `C70_correlation`, `C70_exp_squared`,
  `C70_finite_difference`, `C70_triangular`, `C70_triangular_refuted`,
  `C70_default_scale_refuted`, `C70_light`, `C70_separate`, `C70_predicts`,
  `C70_fixed_refuted`, `C70_shear_refuted`, `C70_weights_prior`
* `WeightLive.v`: `C70_unknowns`, `C70_model_made`
* `WeightMu.v`: `C70_mu`

### C71 Mock images show the sources of their catalog

GalSim's renderer, Sersic profile and astropy's WCS as arguments; the shear as
its matrix, its inverse reduced to the elliptical radius of the source (the
contours of C68); the image by induction over the scene with the accumulated
array as invariant; files through the transposition lemmas of C62.

Status: partial. Proved for stamps with columns to the east; mirrored stamps,
unequal radii, PSFs of several dispersions and dithers refuted.

* `MockProps.v`: `C71_stamp`, `C71_scene`, `C71_scene_raises`,
  `C71_scene_given`, `C71_spacing_refuted`, `C71_shape`, `C71_area`,
  `C71_image`, `C71_image_defined`, `C71_centre`, `C71_flipped_refuted`,
  `C71_psfstore`, `C71_psfstore_twice`, `C71_psf_sum_refuted`, `C71_noise`,
  `C71_file`, `C71_dithers_refuted`, `C71_star_import_refuted`
* `MockLive.v`: `C71_scene_made`, `C71_psfstore_made`, `C71_noise_made`

### C72 Corner plots show the density of the samples and the fractions asked for

scipy's filter as an argument; bins as a partition of the span; the level as the
split of the densities in descending order at the fraction; the loop by
induction over the tail of the list with a bound on the changes of its head;
zeros side by side as the invariant of the loop that does not end; panels and
labels for every number of parameters.

Status: partial. Histograms, levels, density, marginals, panels and labels are
proved. Refuted of the code: the end of the loop without samples in the span,
distinct contours, equal bins of marginal and joint panels, true values on the
joint panels.

* `CornerProps.v`: `C72_counts`, `C72_counts_1d`, `C72_levels`, `C72_nested`,
  `C72_contours`, `C72_hang_refuted`, `C72_no_samples_refuted`, `C72_smoothing`,
  `C72_one_bin_refuted`, `C72_bins_refuted`, `C72_density`, `C72_fills`,
  `C72_colours`, `C72_default_levels`, `C72_coincide_refuted`, `C72_marginal`,
  `C72_peak`, `C72_peak_refuted`, `C72_panels`, `C72_once`, `C72_scatter`,
  `C72_labels`, `C72_truths_refuted`
* `CornerLive.v`: `C72_drawn`

### C73 Profiles, tables and pictures of fitted mixtures show what they say

scipy's incomplete gamma function by its derivative and limits (met by the
exponential, ProfCase), enclosed light by the chain rule; numpy's eigenvectors
by the eigenvalue equation, trace and determinant, the contour by the spectral
form of the covariance; enclosed light of pixels by the partition of C72 summed
over the first bins; the best sample by induction over the list.

Status: partial. The Sersic profile, its enclosed light and radii, the best
sample, the curves and residuals of images and the ellipses of the EM fit are
proved. Refuted of the code: the ellipses of sampled Gaussians, the volume of
the two-dimensional density, distinct columns of the table, small images away
from their centre.

* `ProfProps.v`: `C73_profile`, `C73_enclosed_light`, `C73_radius_of_fraction`,
  `C73_smoothed`, `C73_normal_refuted`, `C73_table`, `C73_columns_refuted`,
  `C73_best`, `C73_enclosed`, `C73_narrow_refuted`, `C73_residual`,
  `C73_ellipse_em`, `C73_ellipse_hmc_refuted`
* `ProfLive.v`: `C73_enclosed_made`

### C74 Demonstration runs combine, fit and summarise the images they name

drizzlepac as an argument, homogeneous in the weights where that is used (met by
the identity, DemoCase); the running mean by induction over the exposures with
the total weight as invariant, nan as absence; the grid as a product; the fits
of a grid by induction with the images on disk as state; percentiles and spans
from C53, the aperture fraction from C50.

Status: partial. Weighted mean, order, weight scale, grid, own image under
distinct tags, region, catalog, percentiles, aperture flux, common spans and
trace panels are proved. Refuted of the code: missed pixels, the mosaic's
header, tags that print alike, YAML paths with fits in them, the imports of the
grid driver, catalogs without a file or with two sources, error bars at the best
sample, frames of the movie.

* `DemoProps.v`: `C74_mosaic`, `C74_mosaic_order`, `C74_mosaic_variance`,
  `C74_drz_name`, `C74_weight_scale`, `C74_uncovered_refuted`,
  `C74_header_refuted`, `C74_grid`, `C74_grid_path_refuted`, `C74_grid_fits`,
  `C74_grid_own`, `C74_grid_steps`, `C74_tags_refuted`, `C74_tags_collide`,
  `C74_size`, `C74_region`, `C74_import_refuted`, `C74_catalog`,
  `C74_catalog_refuted`, `C74_map`, `C74_points`, `C74_map_point_refuted`,
  `C74_shown`, `C74_apflux`, `C74_multispan`, `C74_trace`, `C74_movie_refuted`
* `DemoLive.v`: `C74_multispan_made`, `C74_trace_made`
* `DemoFirst.v`: `C74_first`, `C74_single`

### C75 Pictures, tables and logs of a patch show what they say

minima and maxima of arrays by induction, nan (None) spreading through arrays
but not through Python's min and max; place of a pixel from C40_populate; the
style of a call by induction over the calls; pages from C74_trace for each
source; the table by induction over names and iterations; overlaps from
find_overlaps (C08) with the empty query as an exception; cases in ReportCase (a
masked pixel with a residual of -100 outside the scale, three calls in two
colours, two bands, a sky of five sources).

Status: partial. False of the code for masked pixels, colours of later calls,
one band, sources in two patches, empty circles and default bounds (Finding 58);
the rest is proved.

* `ReportProps.v`: `C75_scale`, `C75_scale_refuted`, `C75_panels`, `C75_place`,
  `C75_marks`, `C75_marks_refuted`, `C75_chain_pdf`, `C75_chain_pdf_refuted`,
  `C75_statscat`, `C75_log`, `C75_multipatch_refuted`, `C75_overlap_circle`,
  `C75_pymc3`, `C75_pymc3_refuted`, `C75_pymc3_refuses`

### C76 Scene coordinates measure separations on the sky

astropy's offset frame as an explicit rotation and arctan2, over R; dot products
are kept by it, so the haversine of a separation is that of the scene
coordinates; bounds of sine and cosine by partial sums of their series give both
inequalities; caches by induction over histories; the tree is an argument with
its specification (met in FrameCase by looking at every point); cases on the
equator in FrameCase.

Status: partial. Proved for catalogs as they were given, in fields of up to half
a radian about their medians; false of the code across right ascension zero, for
sources that have moved and for a second catalog (Finding 59).

* `FrameProps.v`: `C76_median`, `C76_center`, `C76_distance`, `C76_cached`,
  `C76_search`, `C76_moved_refuted`, `C76_reingest_refuted`, `C76_wrap_refuted`,
  `C76_directions`
* `FrameLive.v`: `C76_taken`, `C76_median_mirror`

### C77 Single precision costs no more than reference coordinates are meant to allow

numbers are reals, operations are exact and then rounded to nearest even in the
formats of Flocq (24 and 53 bits, with subnormals, no overflow); relative errors
of each operation (an addition has no subnormal error) added up along the
expressions, running sums by induction over the list with the bound ((1+u)^n -
1), at most 2nu for nu at most one half; numbers within a quarter unit of a
single precision number round to it; ties computed; cases in SingleCase (a
source in the southern sky, a move of 8 pixels and one of 2^-16, a patch with a
masked pixel).

Status: partial. Error bounds proved without a bound on the data; proposals
closer than 2^-26 of the pixel coordinate are one to the kernel, and derivatives
depend on order and stop growing (Finding 60).

* `SingleProps.v`: `C77_packed`, `C77_unreferenced`, `C77_unreferenced_refuted`,
  `C77_unmoved`, `C77_centre`, `C77_placed`, `C77_monotone`, `C77_dead_zone`,
  `C77_residual`, `C77_absorbed_refuted`, `C77_chi2_form`, `C77_pixel`,
  `C77_sums`, `C77_patch`, `C77_blank`, `C77_stall`, `C77_order_refuted`

### C78 The counts of a source in a pixel are its light on that pixel

the kernel model of C20 to C23; Coquelicot's Riemann integrals, iterated over a
pixel. Fourth derivatives of the Gaussian are bounded by the matrix
(Cauchy-Schwarz and a cubic bound of the exponential), Taylor bounds at the
centre integrated along rows and then over the rows; the cutoff by decay of
polynomial times exponential; positivity of the convolved covariance from source
plus PSF; the integral over the plane from the one over the line, itself from
the derivative of a squared area plus a companion integral; blocks by Chasles.
Partial because the sign claim fails for narrow Gaussians (C78_narrow_refuted).
Not covered: rounding (C77), and PSFs that are not sums of Gaussians.

Status: partial. Bounds and total flux proved for every Gaussian; that no pixel
loses light holds down to 0.29 pixel and is refuted below (Finding 61).

* `PixelProps.v`: `C78_pixel`, `C78_residual`, `C78_width`, `C78_flux`,
  `C78_image`, `C78_block`, `C78_positive`, `C78_negative_refuted`,
  `C78_narrow_refuted`

### C79 The Gaussians of the kernel are the source's profile on the sky, taken to the pixels and convolved with the PSF

the kernel model of C20 to C23; the integral of profile times PSF over the sky
by completing the square in two variables (algebra of the three quadratic forms,
Coquelicot's improper integrals row by row), and the result compared with the
matrix the kernel inverts; sums over sources and PSF components by induction.
The whole profile and the whole PSF by linearity of the integrals, when the
table has the same components for every radius.

Status: proved. For PSF components of positive width, radii above zero and axis
ratios other than zero; a zero radius is C79_point.

* `ConvProps.v`: `C79_convolution`, `C79_point`, `C79_unit`, `C79_patch`
* `MixProps.v`: `C79_mixture`, `C79_sums`

### C80 The likelihood is best at the truth, blind to the way a galaxy is described and to the units of flux

the kernel model of C20 to C23 through the closed form of chi-square and
gradient as sums over exposures, pixels, sources and components (C22);
chi-square minus its value at the truth is a sum of squares. The covariance on
the sky is determined by trace and the double angle; half turns, quarter turns
and circles by the zeros of sine and cosine, and the local scale matrix is
cancelled by its determinant. Units by linearity of each Gaussian in the flux.

Status: proved. In exact arithmetic; axis ratios other than zero, local scale
matrices of non-zero determinant for the converse, at most MAXSOURCES sources.

* `TwinProps.v`: `C80_best`, `C80_flat`, `C80_mock`, `C80_shapes`, `C80_same`,
  `C80_same_gradient`, `C80_units`

### C81 The fit does not depend on the order of the sources, on how they are split, or on the axes of the sky

the closed form of C22; the metadata of the patch laid out anew for any number
of sources that are parts of the old ones, the light summed by old source;
permutations as the case of one part each. Turned axes cancel in every product
with the rotation of the galaxy, and turn the derivatives to the position.

Status: proved. For the kernel with real arithmetic; sums in another order
differ in single precision (C77).

* `LabelProps.v`: `C81_parts`, `C81_order`, `C81_axes`

### C82 A run comes to its end

the loop and server models of C06 to C13; a potential (twice the rounds wanted,
plus the useless and minus the useful tasks out) falls with every pass, where a
task is useful when one of its sources still wants a round and outstanding tasks
are disjoint; the seed is in its own patch by counting the sources within its
reach. Never fitted: invariants over histories and runs. The linked server: the
seed sorts first among the candidates and is first in its own group. Seeds that
want nothing are not covered: the draw favours the others but does not exclude
them.

Status: partial. Proved when every source has room in a patch of its own and
seeds want iterations. Refuted of the code otherwise: a wide or crowded source
is never fitted and the loop does not end. The linked server puts every seed in
its own patch unless another source is at the very same place.

* `EndProps.v`: `C82_ends_partial`
* `EndNever.v`: `C82_wide`, `C82_crowd_refuted`
* `LinkedSeed.v`: `C82_linked_seed`, `C82_linked_granted`, `C82_twins_refuted`

### C83 A postage stamp is the piece of the image it was asked for

Truncation and slices of lists with negative ends; values with infinity and nan;
the cut by the position of the slice ends, without the line that raises (which
is modelled in extract_stamp).

Status: partial. False of the code, with witnesses: the function raises for
every image (it sets a read-only attribute), and without that line gives nothing
back, raises for centres on the sky, takes the rows of a FITS image for its
first axis, gives no pixels near the low edges, a short stamp near the high
edges, and keeps the weight of values that are not numbers. Proved of the code
without the line that raises: shape, pixels, weights, coordinates, reference
pixel and matrix for centres in pixels half a stamp from the edges.

* `CutProps.v`: `C83_cut_partial`, `C83_nothing_refuted`,
  `C83_low_edge_refuted`, `C83_axes_refuted`, `C83_nan_refuted`
* `CutEdge.v`: `C83_high_edge_refuted`

### C84 With places and shapes held, the fluxes have one well: a parabola known from value and gradient

the closed form of C22 with every term split into the flux and the light per
unit of flux, which is the same for all fluxes and is also what the flux
derivative multiplies; sums exchanged over sources, exposures and pixels; the
rest is completing the square. Out of reach: every term is dropped by the cut on
the exponent, in the value and in the derivatives.

Status: proved. Over the reals; at most MAXSOURCES sources. The cut of faint
tails is the same for all fluxes, so the parabola is exact. The claim is about
fluxes only: C84_place_refuted shows that the like is false of places, and that
a source out of reach has a zero gradient though the fit is not the best.

* `FluxProps.v`: `C84_parabola`, `C84_best`, `C84_ties`, `C84_chord`,
  `C84_gradient_line`, `C84_one_step`, `C84_dark`
* `FluxPlace.v`: `C84_out_of_reach`, `C84_place_refuted`

## Assumptions per theorem

Output of `Print Assumptions`, grouped. All are axioms of the Coq standard
library; no other library adds one and the development adds none.

**Closed under the global context**

C01_exclusive_checkout, C02_bookkeeping_balances, C02_sparse, C03_checkin_frame,
C03_checkin_succeeds_iff, C03_checkins_commute, C03_looked_up,
C04_counts_and_logs, C04_reset, C05_circular_granted_iff,
C05_circular_patch_shape, C05_circular_refused_iff,
C06_in_use_not_valid_partial, C06_in_use_not_valid_refuted,
C08_growth_is_linked_set, C08_growth_is_reachable_set, C08_wide_radii_refuted,
C09_group_catalog_partial, C09_group_catalog_refuted,
C10_active_repeats_refuted, C10_linked_patch_groups_partial,
C10_linked_patch_shape, C11_exclusive_linked_checkout_partial,
C11_exclusive_linked_checkout_refuted, C12_collect_effect, C12_queue_accounting,
C13_label_refuted, C13_no_exception_partial, C13_queue_never_misused,
C13_results_checked_in_partial, C13_server_error_iff, C13_server_fails_refuted,
C13_stragglers_refuted, C14_generic_source_refuted, C14_set_then_get,
C14_single_band, C14_too_short_fails, C15_stacked_layout, C16_bounds,
C16_bounds_exist, C16_chain_catalog, C16_parameter_vector, C25_accepts,
C25_bands, C25_exposures, C25_padding, C25_split, C26_coordinates_match,
C26_corners, C26_each_pixel_once, C26_large_image_refuted, C26_region_pixels,
C28_idempotent, C34_assembled, C34_extract, C34_returned_unchanged,
C34_round_trip, C35_chain_catalog_exists, C35_sample_roundtrip,
C37_abbreviation_refuted, C37_bounds_kwargs, C37_count, C37_exact_partial,
C37_joined_config_file_refuted, C37_joined_refuted, C37_precedence_partial,
C37_read_config_refuted, C37_rectified, C37_store_directory_refuted,
C37_store_path, C37_stray, C37_unknown, C38_answers_fresh_partial,
C38_first_vector_refuted, C38_shared_gradient_refuted,
C38_stale_after_inplace_change_refuted, C38_stale_after_prior_change_refuted,
C38_stale_after_switch_refuted, C40_catalog, C40_images_partial,
C40_leaked_shape_refuted, C40_multipatch_partial, C40_multipatch_refuted,
C40_padding_refuted, C40_patches_argument_refuted, C40_populate,
C40_shared_default_refuted, C41_mixed_lengths_refuted, C41_psf_rows,
C43_accumulator_in_range, C44_fixed_source_refuted,
C44_indices_of_active_source, C45_per_source_psf_refuted,
C45_shared_psf_partial, C45_store_ignores_position, C49_duplicate_refuted,
C49_images, C49_round_trip, C49_too_few_residuals, C54_append,
C54_append_shifted_refuted, C54_append_unnamed_refuted, C55_again,
C55_bare_name_refuted, C55_complete, C55_filled, C55_kept,
C55_large_list_refuted, C55_loaded, C55_names_refuted, C55_none_refuted,
C55_rectangle_refuted, C55_saved, C55_scalar_array_refuted, C55_task,
C55_text_array_refuted, C56_images_partial, C56_labels_refuted, C56_names,
C56_pages_partial, C56_pages_refuted, C56_patch_regions, C56_same_name_refuted,
C57_class_refuted, C57_exact, C57_lost_refuted, C57_names_aligned,
C57_names_distinct, C57_names_fit_refuted, C57_round_trip_partial, C57_stable,
C57_written, C58_combined, C58_overwrite, C59_band, C59_capitals,
C59_deleted_refuted, C59_distinct, C59_distinct_refuted, C59_file,
C59_gwcs_partial, C59_gwcs_refuted, C59_headers, C59_identity, C59_pixels,
C59_run, C59_sizes, C59_table, C61_astrometry, C61_back_refuted, C61_bands,
C61_built, C61_counts, C61_fixed_refuted, C61_gaussians, C61_last_refuted,
C61_mask_refuted, C61_pixels, C61_psf, C61_reference_refuted, C61_single,
C61_sizes, C61_unset_refuted, C61_unsorted, C62_grid, C63_beside,
C63_clipped_refuted, C63_directory_refuted, C63_elsewhere, C63_first, C63_made,
C63_metadata, C63_next, C63_order_refuted, C63_overwritten_refuted,
C63_patch0_refuted, C63_ranges, C63_raw_refuted, C63_written,
C64_dynesty_default_refuted, C64_slow_refuted, C65_barrier_refuted, C66_answers,
C66_child_refuted, C66_content, C66_crash, C66_default_tag_refuted,
C66_dummy_refuted, C66_form, C66_listening, C66_one_task, C66_refines,
C66_stops, C66_waiting, C68_annotate, C71_star_import_refuted, C72_labels,
C72_once, C72_panels, C72_scatter, C72_truths_refuted, C74_drz_name, C74_grid,
C74_grid_path_refuted, C74_header_refuted, C74_import_refuted,
C74_movie_refuted, C75_log, C75_marks, C75_marks_refuted,
C75_multipatch_refuted, C75_overlap_circle, C75_pymc3_refuted, C75_statscat,
C82_crowd_refuted, C82_ends_partial, C82_linked_granted, C82_linked_seed,
C82_twins_refuted, C82_wide

**`ClassicalDedekindReals.sig_forall_dec`**

C16_proposal, C29_blocks, C71_psfstore_made, C74_catalog, C74_catalog_refuted,
C74_first, C74_single, C75_pymc3, C75_pymc3_refuses

**`ClassicalDedekindReals.sig_forall_dec`, `FunctionalExtensionality.functional_extensionality_dep`**

C15_stacked_gradient, C23_arcsec_psf_refuted, C28_cap_partial,
C28_negative_refuted, C29_derivatives, C30_curvature, C30_least_squares,
C30_masked, C30_precision, C30_unique, C31_contains_ccw, C31_contains_cw,
C31_contains_hull, C31_convex_exact, C31_degenerate_refuted, C31_disjoint,
C33_adjust_refuted, C33_adjust_widens, C33_check_exact, C33_missing_column,
C33_vectors, C36_degenerate_box, C36_inside_untouched, C36_parity, C36_reflects,
C39_unzero_zero, C42_fits_check, C42_meta_inside_partial, C42_meta_refuted,
C42_meta_square_partial, C42_rectangle_margin, C48_stamp_round_trip,
C51_unit_amplitudes, C52_mass, C52_mass_default, C52_mass_kept,
C52_mass_refuted, C52_variance, C53_affine, C53_catalog, C53_counts, C53_ends,
C53_equal_weights, C53_heavy_refuted, C53_last_weight_refuted, C53_monotone,
C53_order, C53_percentile, C53_spans, C53_weight_scale, C53_weighted,
C53_weighted_found, C53_weighted_place, C54_combined, C54_conserved, C54_header,
C54_integer_ids_refuted, C54_names_refuted, C54_order, C54_position,
C54_wrap_refuted, C58_files_refuted, C58_image, C58_newstyle_refuted, C58_order,
C58_parameters, C58_reshape, C58_shape, C60_below, C60_edge_refuted,
C60_gradient, C64_built, C64_check_grad, C64_dynesty_uniform,
C64_zero_bounds_refuted, C67_moments, C71_psf_sum_refuted, C71_psfstore,
C71_psfstore_twice, C72_bins_refuted, C72_coincide_refuted, C72_colours,
C72_contours, C72_counts, C72_counts_1d, C72_fills, C72_hang_refuted,
C72_levels, C72_marginal, C72_nested, C72_peak, C72_peak_refuted, C72_smoothing,
C73_best, C73_columns_refuted, C73_residual, C73_table, C74_grid_fits,
C74_grid_own, C74_grid_steps, C74_map, C74_map_point_refuted, C74_multispan,
C74_multispan_made, C74_points, C74_shown, C74_size, C74_tags_collide,
C74_tags_refuted, C74_trace, C74_trace_made, C74_uncovered_refuted,
C74_weight_scale, C75_chain_pdf, C75_chain_pdf_refuted, C75_panels, C75_place,
C75_scale, C75_scale_refuted, C76_median, C76_median_mirror, C83_axes_refuted,
C83_cut_partial, C83_high_edge_refuted, C83_low_edge_refuted, C83_nan_refuted,
C83_nothing_refuted

**`ClassicalDedekindReals.sig_forall_dec`, `ClassicalDedekindReals.sig_not_dec`, `FunctionalExtensionality.functional_extensionality_dep`**

C07_invalid_weight_zero_refuted, C07_seed_weights_probability,
C07_sigmoid_active_weight_zero_refuted, C17_transform_inside,
C20_rendered_value, C20_sums, C22_chi2_value, C22_no_extra_gradient,
C22_unmasked_pixels_only, C23_same_gradient, C23_same_image,
C24_angle_modulo_pi, C29_cpu_twice_refuted, C29_empty_fixed_refuted,
C29_gpu_refuses_second, C29_subtracted_once_partial, C30_failure, C30_fluxes,
C30_prepared, C30_zero_flux_refuted, C31_rectangles, C32_kept_partial,
C32_multiple_of_pi, C32_principal_iff, C32_rectify_rotate,
C32_unwrapped_refuted, C33_default_ranges_refuted, C33_default_shapes,
C33_flux_width, C33_generated_iff_partial, C33_precision, C33_widths,
C33_zero_flux_refuted, C33_zero_width, C39_linear_optimize_refuted,
C39_no_active_refuted, C39_prepare, C39_reference, C39_repeat, C42_bounding_box,
C42_circle_partial, C42_crossing_refuted, C42_found, C42_lazy_wcs_refuted,
C42_rectangle_partial, C42_small_circle_refuted, C42_small_rectangle_refuted,
C42_surrounded_refuted, C43_gpu_equals_cpu, C43_gpu_runs, C43_same_residuals,
C43_unpadded_refuted, C45_kernel_reads_first_refuted, C47_density,
C48_branches_agree, C48_first_source_refuted, C48_limit, C48_linear_exact,
C48_moved_position, C48_packed_position, C48_ra_wrap_refuted,
C48_scale_in_arcsec, C48_stored_affine, C48_stored_sources, C51_any_value,
C51_fast_value, C51_fixed_scene_refuted, C51_fixed_sources_refuted,
C51_plans_agree, C51_shared_keyword_refuted, C51_value, C54_default,
C54_default_snr_refuted, C54_missing_refuted, C54_snr, C54_uncertainties,
C54_zero_flux_refuted, C58_detector, C58_flux, C58_newstyle_partial,
C58_one_gaussian_refuted, C58_scaled, C58_stored, C60_descending_refuted,
C60_jump_refuted, C60_opens, C60_repeated, C60_table, C60_total,
C62_fixed_refuted, C62_image, C62_selection_refuted, C62_sign_refuted,
C67_easy_defined, C67_easy_start, C67_greedy_refuted, C68_axes,
C68_documented_refuted, C68_isophotes, C68_jades_refuted, C68_place_refuted,
C68_regions, C68_regions_defined, C68_sourcereg_refuted, C69_band_refuted,
C69_chain_half, C69_half, C69_half_defined, C69_image, C69_place, C69_positive,
C69_radii, C69_radii_made, C69_stamp_refuted, C69_ties_refuted, C69_units,
C70_correlation, C70_default_scale_refuted, C70_exp_squared,
C70_finite_difference, C70_separate, C70_triangular, C70_triangular_refuted,
C71_area, C71_flipped_refuted, C71_noise, C71_noise_made, C71_shape,
C72_density, C72_drawn, C72_no_samples_refuted, C72_one_bin_refuted,
C73_ellipse_em, C73_enclosed, C73_enclosed_made, C73_narrow_refuted,
C73_normal_refuted, C74_mosaic, C74_mosaic_order, C74_mosaic_variance,
C74_region, C78_narrow_refuted, C78_negative_refuted, C78_positive, C79_point,
C80_best, C80_flat, C80_mock, C80_same, C80_same_gradient, C80_shapes,
C80_units, C81_axes, C81_order, C81_parts, C84_best, C84_chord, C84_dark,
C84_gradient_line, C84_one_step, C84_out_of_reach, C84_parabola,
C84_place_refuted, C84_ties

**`ClassicalDedekindReals.sig_forall_dec`, `ClassicalDedekindReals.sig_not_dec`, `Classical_Prop.classic`, `FunctionalExtensionality.functional_extensionality_dep`**

C07_seed_weights_favour_undersampled, C17_increasing, C17_inverse_of_transform,
C17_transform_of_inverse, C18_fast_posterior_gradient, C18_nll_gradient,
C18_posterior_gradient, C18_volume_term, C19_any_exponent_refuted,
C19_barrier_gradient, C19_barrier_partial, C19_box_partial, C19_sum,
C19_symmetric, C20_pixel_derivatives, C21_jacobian, C21_kernel_gradient,
C21_posterior_gradient, C23_dropped_term, C24_eta_roundtrip,
C24_fast_gradient_refuted, C24_gradient_conversion, C24_pa_derivatives,
C24_pa_on_cut_refuted, C24_q_derivatives, C24_q_range, C24_qphi_roundtrip,
C27_accepts_any_values, C27_integer_mask_refuted, C27_refusal,
C27_stored_pixels_partial, C28_single_partial, C28_single_refuted,
C39_float_exact, C39_float_refuted, C46_background_refuted,
C46_store_again_partial, C47_answer_sound, C47_first_pass_refuted,
C47_likelihoods_never_decrease_partial, C47_moments_preserved,
C47_no_answer_refuted, C47_pass_never_lowers, C47_repeats, C50_flux,
C50_flux_radius, C50_fraction, C50_isophote, C50_isophote_refuted, C50_kron,
C50_kron_rmax_partial, C50_kron_rmax_refuted, C51_gradient, C51_negative,
C51_render_gradient, C51_shear_refuted, C52_chain, C52_handoff,
C52_handoff_fluxes, C52_lnp_partial, C52_lnp_refuted, C52_map, C52_map_refuted,
C52_optimum, C52_singular_refuted, C52_start, C52_stationary, C52_task_optimum,
C52_volume_kept_refuted, C52_warmup_refuted, C57_ids, C57_position_error,
C57_position_refuted, C58_blur, C58_fwhm_refuted, C59_flux, C60_growth,
C60_misfit, C60_mixture, C60_point, C60_profile, C60_smooth_refuted, C60_stored,
C62_again, C62_moved_refuted, C62_new_refuted, C62_writable, C62_written,
C64_bounded_partial, C64_bounds_refuted, C64_check_error, C64_dynesty,
C64_dynesty_runs, C64_dynesty_scene_refuted, C64_fast, C64_slow_nll_refuted,
C64_slow_partial, C65_density_refuted, C65_expbeta, C65_flat, C65_law,
C65_outside_refuted, C65_own_range_refuted, C65_range, C67_answers,
C67_greedy_repeats, C67_least, C67_least_squares_refuted, C67_nan_refuted,
C67_shared_start_refuted, C68_outline, C68_size_refuted, C68_turned_refuted,
C70_fixed_refuted, C70_light, C70_model_made, C70_mu, C70_predicts,
C70_shear_refuted, C70_unknowns, C70_weights_prior, C71_centre,
C71_dithers_refuted, C71_file, C71_image, C71_image_defined, C71_scene,
C71_scene_given, C71_scene_made, C71_scene_raises, C71_spacing_refuted,
C71_stamp, C72_default_levels, C73_ellipse_hmc_refuted, C73_enclosed_light,
C73_profile, C73_radius_of_fraction, C73_smoothed, C74_apflux, C76_cached,
C76_center, C76_directions, C76_distance, C76_moved_refuted,
C76_reingest_refuted, C76_search, C76_taken, C76_wrap_refuted,
C77_absorbed_refuted, C77_blank, C77_centre, C77_chi2_form, C77_dead_zone,
C77_monotone, C77_order_refuted, C77_packed, C77_patch, C77_pixel, C77_placed,
C77_residual, C77_stall, C77_sums, C77_unmoved, C77_unreferenced,
C77_unreferenced_refuted, C78_block, C78_flux, C78_image, C78_pixel,
C78_residual, C78_width, C79_convolution, C79_mixture, C79_patch, C79_sums,
C79_unit

## Findings

What the proofs and refutations say about the code. The theorem or model that
records each is in parentheses; items without one come from reading only.

1. `SuperScene` does not count users of a source in `is_valid`: the return of one
   patch marks a source valid that another patch still uses (C06).
2. `exp_weight` applies `~` to an int32 flag, so invalid sources keep weight;
   `sigmoid_weight` gives active sources weight (C07).
3. `LinkedSuperScene` misses overlaps for radii above the boundary radius, links
   are then not symmetric, groups and patches repeat or split sources (C08–C11).
4. `get_circular_scene` with no room for active sources raises instead of
   refusing (C05); an empty array of fixed sources makes `subtract_fixed` raise
   (C29).
5. `adjust_bounds` clips every flux below its lower bound (C33); it also uses an
   attribute `source_catalog` that the server does not have.
6. `convert_pa` tests `pa < pi/2` where `-pi/2` is meant, so angles oscillate
   (C32).
7. `rectify_catalog`'s default ranges allow shapes outside `make_bounds`'s
   defaults; a zero flux lies on its lower bound (C33).
8. `do_parent` logs results under the latest task number and drops results that
   arrive after its loop (C13). The dispatcher imports `read_config` from a
   module that does not define it, and `MPI` only under `__main__`.
   `read_config(file, args)` lets parser defaults override the file (C37).
9. `Scene.param_indices` mixes positions among active and among all sources
   (C44); `filtername=None` raises. The base `Source` cannot be set (C14).
10. `Posterior` returns stale answers after in-place changes of the vector, of
    switches or of the prior, and hands out its own gradient array (C38).
11. A second `prepare_model` on a CPU patch subtracts fixed sources again (C29).
12. `pack_meta` of a scene already shifted records the reference (0,0), and so
    does a patch without active sources (C39). `optimize_fluxes` leaves the
    reference at the last source (C39). Its handling of `LinAlgError` returns a
    tuple of the wrong length.
13. `MetaStore.find_exposures` builds its box from `imsize[0]` twice (C42); a
    `StorePatch` opens metadata without WCS and finds nothing; circles away from
    super-pixel corners, boxes around an image and crossing regions are missed
    (C42).
14. Command line values given as `--k=v` or abbreviated are parsed and then
    dropped; `--config_file=f` is ignored; `store_directory` with an unset store
    file raises (C37).
15. `find_multipatch` indexes a list by patch id; `postsample_catalog` with
    explicit patches sizes its output by their number; `fill_images` shares a
    mutable default, leaks the shape of the last image and writes padding pixels
    over the last pixel (C40).
16. `PSFStore` ignores the position of a source, and the kernel reads the rows of
    the first source for every source (C45). `_pack_psf` checks only the grand
    total of rows (C41).
17. A degenerate polygon contains every point, two points always overlap (C31).
18. `design_matrix` divides by the flux of the catalog: a zero flux gives an
    undefined row (C30).
19. The GPU kernel's `FULL_MASK` shuffles need exposures padded to a multiple of
    32 pixels (C43); `StorePatch` guarantees that only if the squared super-pixel
    size is one.
20. The fast likelihood never converts gradients for `ConformalShearGalaxy`
    (C24).
21. `ExpBeta` accepts exponents for which it is no barrier (C19).
22. The slow renderer scales PSF covariances in arcsec by `fwhm/2.355` instead of
    its square (C23).
23. `_cap_snr` caps positive data only (C28). `add_exposure` treats integer masks
    without a bitmask as indices (C27) and changes the caller's arrays (C46).
24. int16 pixel coordinates wrap for sides above 32768 (C26).
25. In binary64 removing and restoring the reference is not exact (C39).
26. `check_constrained` never ends when lower = upper (C36).
27. The mixture fit may lower the likelihood on its first pass and returns nothing
    when it does not converge (C47).
28. `scale_at_sky` does not wrap right ascension; `sky_to_pix` uses the first
    source's matrix when numbers differ (C48).
29. `make_imset` swallows errors, so a repeated exposure path loses data (C49).
30. `kron_radius` with a maximum radius misses a ratio of gamma functions;
    `isophotal_radius` returns a radius for a brightness never reached (C50).
31. `run_opt` reports half the log posterior; the function it minimises keeps the
    volume term of the transform unless sampling is switched off first; `run_lmc`
    uses `warmup[0]` only; `get_pot` goes on with a matrix that is not positive
    definite after five tries; `get_map` picks the sample with the highest density
    in the unbounded variables, not in the scene parameters; a singular band in the
    linear step makes `optimize` raise TypeError (C52).
32. `rectify_jades` uses a name that is not imported; `write_sourcereg` writes the
    wrong variable (reading only).
33. `WorkPlan` leaves fixed sources out of the model image; a `FastWorkPlan`
    without active sources leaves `compute_deriv=False` in the dictionary all plans
    share, after which a `WorkPlan` raises; a scene with a fixed source in front
    of an active one makes `lnlike_multi` index past the gradient (C51). Gradients
    divide by flux, amplitude and pixel correction and are nan where one is zero.
34. The weighted quantile of the corner plots drops the last entry of the
    cumulative weights, so the weight of the largest sample is never used: with
    nearly all the weight on it, it is still not the median (C53).
35. `combine_chains` looks for ids as text, so the integer ids written by
    `postsample_catalog` are never found; it stores the group name as the text of a
    float ("7" becomes "7.0"); it averages right ascension without regard to the
    wrap at 360 degrees. `append_catalogs` falls back to the extension before the
    right one: unnamed tables raise, partly named ones give the rows of another
    table. `flux_unc_linear` promises a default where there is no precision matrix
    but raises for the whole run; the default exceeds `snr_max`, and a flux of
    exactly zero gets the largest upper bound of the catalog (C54).
36. `dump_to_h5` loses attributes that are None (`fixed`, `big`, `patchID`) and lists
    over 64K (for instance of matrices), and `write_to_disk` drops the messages that
    say so; an array of text raises and leaves a file without what comes after; an
    array without dimensions makes the file unreadable; a file name without a
    directory raises. After a fit in a rectangle the loaded result has no region
    and no chain catalog is made. Nothing saves the `precisions` that
    `flux_unc_linear` reads: `tasks.optimize` puts them on a scratchpad under
    another name (C55).
37. The dispatch loop dies in the checkout, with work left, once a fit has grown a
    source past the maximal patch radius, or moved it away from all cached
    positions: `get_circular_scene` takes the maximum of an empty array (C13).
38. `write_images` names files after the last part of the exposure's path:
    exposures of equal name in two bands overwrite each other. `write_patchreg`
    labels circles with the rank of the file name ("patch10" is 1), sorts the
    caller's list, and fails for rectangular patches. `residual_pdf` leaves out
    the patches after the last full page (C56). Seen while reading, without a
    theorem: the script's mode "images" passes a string to `write_patchreg`,
    which needs a list; `write_sourcereg` computes a path in the run directory
    but writes to the current one; `check_multipatch` uses an undefined name.
39. `Scene.from_catalog` works for `Galaxy` and `ConformalShearGalaxy` only: the
    constructors of `Star`, `SimpleGalaxy` and `Source` do not know the keyword
    `filternames`, and with `free_sersic=False` the conformal shear class tries to
    assign the property `q`. `to_catalog` stores degrees in single precision (up to
    0.055 arcsec), drops the mark `fixed`, and fills extra columns of unknown name
    with zeros; `parameter_names` counts fixed sources, the vector of a fit does not
    (C57).
40. PSF files. `get_psf` without a file scales the covariance by fwhm/2.355 instead of
    its square, so the width is right only for fwhm = 8 ln 2 / 2.355; with `n_gauss=None`
    it never reads a pickle (`pdat.keys()[0]`); it can read neither what `psf_mixture`
    writes with `newstyle` (columns x, y, vxx instead of xcr, ycr, Cxx) nor what
    `package_output` writes (a group per band). `psf_mixture` on a non-square image
    shifts the table by half the difference of the sides, and fits that ran out leave
    rows of zeros. Sampled fits with one gaussian have no weight and are never stored.
    `package_output` with an existing band and overwrite=False raises
    UnboundLocalError. approx/psf/make_psf.py needs `best["sy"]`, which psf_model no
    longer samples (C58).
41. `header_to_id` removes the frame directory wherever it occurs in the path and
    ".fits" wherever it occurs in the name, and without a frame directory uses the base
    name only, so different files get one identifier; a frame directory given with a
    trailing slash refuses the files directly in it. Adding an exposure named like a
    directory of others (a.fits beside a/) deletes theirs from the pixel store.
    `MetaStore.write_to_file` leaves an old .asdf file in place when there is no
    generalized WCS to write, and reading with `use_gwcs` then gives the old ones;
    `use_gwcs` without `load_all` reads none, so writing that store elsewhere drops
    them. Opening a pixel store that does not exist creates it (C59).

42. `Galaxy.initialize_splines` reshapes the amplitudes to the lengths of the sorted
    unique indices and radii, without sorting the amplitudes. A table written with
    descending radii gives every galaxy the amplitudes of another radius, silently;
    one with a repeated value raises. Beyond the largest radius the amplitudes are
    constant but the derivative handed to the sampler is the slope at the edge of
    the table. At the smallest Sersic index the amplitudes jump to a single
    gaussian. The smoothness penalty of `chisq`, described as a penalty on
    gradients, is zero only when all amplitudes are one; without radii `chisq`
    raises for a float index (C60).

43. `StaticPatch.__init__` hands its mask to `pack_pix` as the data type: any mask
    of more than one pixel raises. A scene with a fixed source always raises, as
    the arrays have room for the active sources only but are filled for all. The
    number of gaussians is not checked in the last exposure: sources whose numbers
    are wrong but add up pass, and one reads gaussians of another; too few leave
    memory unset. Reference pixel, position and zero point are the first source's
    for all. `patch_to_stamps` uses a name that is not imported and raises for
    every patch (C61).

44. Asking a stamp for its `wcs`, as `to_fits` does, replaces its `dpix_dsky`. The
    declination for the new one is taken one pixel before the reference pixel
    (zero-based coordinates are read with `origin=1`), so a stamp with the right
    conversion is changed by being written; a new one becomes 3600 times steeper.
    `WorkPlan.make_image` returns the negative of what `make_image` returns. Fixed
    sources are in neither. Selecting some of the active sources raises, as the
    indices of the gradients are those of all. `extract_stamp` sets the read-only
    `npix` and returns nothing (C62).

45. `SuperScene.writeout` makes the name of the log by replacing ".fits" everywhere in
    the path. A state file without ".fits" in its name is overwritten by the log, so
    the catalog is lost; a directory with ".fits" in its name sends the log
    elsewhere, and `run_metadata` fails. `postop_catalog` overwrites a raw catalog
    whose name lacks ".fits", takes whichever FITS file the file system lists
    first, and needs patch 0, which the dispatcher never makes. `rectify_catalog`
    clips half-light radii at 0.051 while the default bounds of the fits allow 0.03,
    so the next run does not start at the optimum. The log of sources is keyed by
    the source as text; the documentation says by patch (C63).
46. `Posterior.__init__` tests `np.any(lower) and np.any(upper)`, so a proper box whose
    lower or upper bounds are all zero is refused. `SlowPosterior` does not call it and
    sets neither `_lnpriorfn` nor `ndof`: without a prior every evaluation fails, and
    `nll`, which the optimisers call, always fails. `run_opt_bounded` replaces the
    caller's bounds whenever there is a transform, and the only posterior without a
    transform is the slow one, so the bounds are never used; it reports half the
    log-probability. `run_dynesty` fails with its default bounds; it takes the bounds in
    the sampling space and returns vectors of that space, so the bounds of the posterior
    itself leave half of the range of a positive parameter unexplored
    (C64_zero_bounds_refuted, C64_slow_refuted, C64_slow_nll_refuted,
    C64_bounds_refuted, C64_dynesty_default_refuted, C64_dynesty_scene_refuted).
47. Every prior of `priors.py` except `ExpBeta` is the flat prior: `Beta`, `Normal`,
    `GenNormal`, `HalfNormal`, `StudentT`, `LogUniform` and `TruncatedCauchy` inherit a
    constant value, also outside their range, and `Barrier` cannot be built.
    `TruncatedCauchy.sample` draws the truncated Cauchy law but on [-1, 1] unless told
    otherwise; the range of the prior is not used (C65_outside_refuted,
    C65_density_refuted, C65_barrier_refuted, C65_own_range_refuted).
48. `do_child` always works with `dummy_work`, which indexes the tuple it is given by the
    text "active": every task ends its child with a TypeError, no answer is ever sent,
    and a parent that has submitted a task waits for ever (C66_child_refuted). With work
    that returns what the loop takes apart the protocol is sound. Submitting a task with
    the default tag raises in the send and loses the child, after which the queue can
    never be closed (C66_default_tag_refuted).

49. The reference likelihood of a galaxy in conformal shear has the right value, but the
    gradient entries at eta_+ and eta_x are left the derivatives in axis ratio and
    position angle: only `render` of that class converts them, the work plans do not
    (C51_shear_refuted).

50. PSF mixtures: the `-=` of a negative residual adds the model to the image, so each
    further component of the computed start is larger than the last and n of them hold at
    least n times the flux (C67_greedy_refuted). Least-squares fits never return: they
    use undefined names (C67_least_squares_refuted). An answer of a fit whose first step
    is nan is the array of starting values itself, which the next repeat overwrites, so
    its residual and model image are not those of its parameters
    (C67_shared_start_refuted); a nan residual is picked over any other (C67_nan_refuted).

51. Regions of a catalog are drawn at half the size and at right angles to the modelled
    source: the widths given to the regions package are full axes, and its angle is
    measured from the longitude axis, as pa is (C68_outline, C68_size_refuted,
    C68_turned_refuted). write_sourcereg raises on every run (`cat_to_reg` is not
    defined), and would write to the working directory (C68_sourcereg_refuted,
    C68_place_refuted). docs/inputs.rst asks for q = b/a and pa from north to east; the
    model takes q as the square root of b/a and pa from east to north
    (C68_documented_refuted). rectify_jades raises on every table, and its formulas enlarge
    every ellipse by A/B with q above one (C68_jades_refuted).

52. combined_rhalf interpolates between pixels in the order of a sort that is not stable,
    so pixels at one distance, which every symmetric source has, are counted in an
    arbitrary order and the radius depends on it (C69_ties_refuted). forcepho_slow_model
    replaces the PSF of the caller's stamp and leaves it so, also when it raises
    (C69_stamp_refuted), and raises for any band but that of the stamp although the band
    is an argument (C69_band_refuted).

53. The triangular kernel of get_kernel is not a covariance when the scale exceeds
    n/(n-1), so never at the model's default scale of 3 with two Gaussians or more
    (C70_triangular_refuted, C70_default_scale_refuted). The prediction from the sampled
    parameters forgets a centre or an amplitude that was held fixed
    (C70_fixed_refuted). Asking for shear raises (`maxg` is not defined), as do negative
    Gaussians (C70_shear_refuted).
54. Mock images (demo_utils.py). On a stamp whose columns run to the west, or that is
    rotated, only the size of a pixel reaches the image, so ellipses are mirrored
    (C71_flipped_refuted). Sources of different radii can coincide
    (C71_spacing_refuted). A stored PSF of several dispersions sums to their number
    (C71_psf_sum_refuted). `mosaic_make_dithers.py` reads a second extension that
    `to_fits` never makes for these stamps, so no dither is ever written
    (C71_dithers_refuted). `__all__` names two functions that do not exist
    (C71_star_import_refuted).
55. Corner plots (utils/corner.py). When no sample lies in the span the loop that
    separates equal levels never ends (C72_no_samples_refuted). Levels can coincide
    after it (C72_coincide_refuted). A smoothing between one and two raises in the joint
    panels (C72_one_bin_refuted), and above one is rounded in the marginal but cut off
    in the joint panels (C72_bins_refuted). A peak with a number of bins needs weights
    (C72_peak_refuted). True values of the other parameters are drawn on the
    marginals, and none on the joint panels (C72_truths_refuted).
56. Pictures of mixtures (mixtures/utils_hmc.py, mixtures/sersic_mix_oned.py). The ellipse
    drawn for a sampled Gaussian has its two dispersions exchanged while its centre is not:
    unless they are equal it is not the contour of that Gaussian
    (C73_ellipse_hmc_refuted); the copy in mixtures/utils_em.py exchanges both. `normal`
    divides by the square root of two pi times the determinant, the constant of one
    dimension, so the density is too large by the square root of two pi
    (C73_normal_refuted). The columns of the table of amplitudes are named by the
    dispersion to one decimal, so all below 0.05 have the same name
    (C73_columns_refuted). The curves of enclosed light raise for an image whose nearest
    pixel is farther than the farthest over 1.4 (C73_narrow_refuted).

57. Demonstration runs. A mosaic pixel that any one exposure misses is nan, although the
    others have it and its weight is theirs (C74_uncovered_refuted), and the mosaic gets the
    primary header, without WCS keywords (C74_header_refuted). Grid rows that print alike
    (a Sersic index to one decimal) share a file name, so the second is fitted to the image
    of the first (C74_tags_refuted, C74_tags_collide). A YAML grid with "fits" in its path is
    read as FITS (C74_grid_path_refuted). psf_grid_fit.py imports three functions from a module
    that does not define them (C74_import_refuted). The catalog of a grid fails when no run has
    finished or one has two sources (C74_catalog_refuted). Comparison points at the best sample
    can have negative error bars, which matplotlib refuses (C74_map_point_refuted), and
    splitby=None fails (C74_shown). A movie frame shows the residual of one sample with the
    values of another, n_tune later (C74_movie_refuted).
58. Reports. With one masked pixel the scale of the panels is that of data and model alone, because
    the minimum of an array with nan is nan and Python's min keeps its first argument then: residuals
    may lie outside it (C75_scale_refuted). mark_sources updates a dictionary in its signature, so
    that every call draws in the colours of the calls before (C75_marks_refuted). chain_pdf fails for
    one band, for more than six shape parameters and without warm up (C75_chain_pdf_refuted);
    check_multipatch uses a name that is not there and fails for any source in two patches
    (C75_multipatch_refuted). overlap_circle raises when no source is near, instead of returning
    none (second half of C75_overlap_circle). run_pymc3 fails with its own default bounds
    (C75_pymc3_refuted).
59. Scene coordinates. The centre is the median of right ascensions as numbers: two sources on
    either side of right ascension zero, closer than two degrees, are put more than 180 degrees
    apart and are never found together (C76_wrap_refuted). Frame, coordinates and tree are made
    once: a source a fit has moved is searched for at its first place (C76_moved_refuted), and a
    second catalog given to the same server is searched with the coordinates of the first
    (C76_reingest_refuted).

60. Single precision. A patch whose reference coordinates are still zero has its
    sources on a grid of 2^-16 degrees, 0.055 arcsec, between right ascension 128
    and 256 (`C77_unreferenced_refuted`). Moves of less than 2^-26 of a source's
    pixel coordinate leave the centre where it was, although the derivatives are
    not zero (`C77_dead_zone`). Gaussians of less than 2^-26 of the data are not
    subtracted, however many there are (`C77_absorbed_refuted`). Derivatives are
    summed in single precision: a sum of ones stops at 2^24 (`C77_stall`), and the
    order of the pixels matters (`C77_order_refuted`); chi-square itself is summed
    in double precision. The cap on signal to noise can be passed by a rounding
    (`C28_single_refuted`).

61. Pixel integrals. The kernel integrates a Gaussian over a pixel to second order.
    When the trace of the convolved matrix passes 24 (a width of less than 0.29
    pixel) the pixel at the centre loses light (`C78_negative_refuted`), and below a
    sixth of a pixel a point source of positive flux on the centre of a pixel takes
    light from that pixel and gives none to any other (`C78_narrow_refuted`). Nothing
    in the code stops a PSF mixture from having such a component.

62. Runs that never end. Only sources that reach less than the largest patch radius
    from the seed become active, and only the first maxactive_per_patch of them by
    reach. A source whose half light radius times nscale is no less than the largest
    radius is in no patch of any run (`C82_wide`), and one with narrower neighbours
    close by may be left out of every patch, its own too (`C82_crowd_refuted`). Such
    a source never gets an iteration, `undone` stays true, and the parent goes on
    fitting the others for ever. The linked server does better: the seed is the first
    of its own patch (`C82_linked_seed`) and is handed out whenever its neighbourhood is
    free (`C82_linked_granted`), except that of two sources at one place the
    second can be left out of every patch (`C82_twins_refuted`).

63. `extract_stamp` sets the read-only `npix`, so it raises for every image; without
    that line it would return nothing, and still raise for centres on the sky (an array
    has no `append`). It indexes the rows of a FITS image, its second axis, by x. A
    centre nearer to a low edge than half the stamp gives a negative start of the
    slice, so a stamp without pixels. A value that is nan keeps its weight when its
    uncertainty is good (C83). A rectangle of sky that lies between the corners of a
    super-pixel selects no pixels, as a small circle does (C42).

64. A source proposed more than six widths away from all the pixels of its patch has
    a zero gradient in every parameter (the kernel drops the light in the value and in
    the derivatives alike): a sampler or optimiser that gets there is not told the way
    back, and a vanishing gradient does not mean the fit is good
    (`C84_out_of_reach`, `C84_place_refuted`). Only the bounds of the prior help.

## Not modelled

IEEE rounding beyond C27, C28, C39, C57 and C77, overflow in single precision, scipy's
splines and optimisers, astropy's WCS beyond what C48 assumes of it, the file
formats (FITS, HDF5, JSON, YAML) below the level of names and arrays, MPI
transport, the CUDA memory model beyond atomic additions in any order, the
sampler (littlemcmc) beyond what the claims assume of it, GalSim and drizzlepac
(arguments), and matplotlib beyond what it is given.

## Wrong programs

`seeded/LOG.jsonl` lists the edits of the model tried in a scratch copy, with the
theorems that failed. An edit that no theorem noticed led to a tighter or a new
theorem, named in the same line.
