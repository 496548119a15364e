{"id": "C01", "title": "A source is never being fitted in two patches at once (circular scene server)", "statement": "Starting from a freshly ingested catalog, whatever sequence of checkout requests (any seed, accepted or refused) and check-ins of outstanding patches is issued to the circular scene server, the active source lists of the outstanding patches are pairwise disjoint and contain no repeats, and a refused checkout leaves every flag, counter and parameter of the server as it was.", "quantifier": "every catalog, every geometry (distances, half-light radii, limits), every order in which the spatial index lists neighbours, and every finite history of checkouts and check-ins of outstanding patches", "why_tests_cant": "Exclusivity is about all interleavings of checkouts and returns; a unit test can only try a few histories on a few catalogs.", "anchors": ["forcepho/superscene.py:SuperScene.checkout_region", "forcepho/superscene.py:SuperScene.checkin_region", "forcepho/superscene.py:SuperScene.get_circular_scene"]}
{"id": "C02", "title": "Checkout bookkeeping always balances", "statement": "After every history of checkouts and check-ins the reported number of active (fixed) sources equals the total number of active (fixed) entries in outstanding patches, a source carries the 'active' mark exactly when it is active in some outstanding patch, a source marked not valid is active or fixed in some outstanding patch, and once all patches are returned both counts are zero and no source is marked active and every source is valid.", "quantifier": "every catalog, geometry and finite history", "why_tests_cant": "The balance is an invariant of unbounded histories, not of one round trip.", "anchors": ["forcepho/superscene.py:SuperScene.checkout_region", "forcepho/superscene.py:SuperScene.checkin_region", "forcepho/superscene.py:SuperScene.reset"]}
{"id": "C03", "title": "Check-in writes exactly the returned sources and nothing else", "statement": "Checking in a patch replaces the fitted parameters of exactly the returned active sources by the returned values, adds the iteration number to their iteration count, adds one to their patch count exactly when the iteration number is positive, and leaves all parameters and counts of every other source, and every non-parameter column, bounds row and covariance row not supplied, unchanged; two check-ins of disjoint patches give the same catalog in either order.", "quantifier": "every catalog, every returned patch with distinct sources, every iteration number, every pair of disjoint patches in either return order", "why_tests_cant": "Frame conditions ('nothing else changes') and order independence quantify over all rows, columns and orders.", "anchors": ["forcepho/superscene.py:SuperScene.checkin_region"]}
{"id": "C04", "title": "Iteration counts, logs and the stopping test agree with history", "statement": "After any history the iteration count of a source is its initial count plus the sum of the iteration numbers of the check-ins that returned it, its log is the list of the task labels of those check-ins in order, the patch log is the list of labels of all labelled check-ins in order, and the 'undone' test is false exactly when every source has reached the target count in absolute value.", "quantifier": "every finite history of checkouts and check-ins", "why_tests_cant": "The totals are folds over arbitrary histories.", "anchors": ["forcepho/superscene.py:SuperScene.checkin_region", "forcepho/superscene.py:SuperScene.undone"]}
{"id": "C05", "title": "Shape of a circular patch", "statement": "When the circular scene server grants a patch, it has at least one and at most the permitted number of active sources; they are the ones with the smallest outer distance among the neighbours of the centre; the patch radius is at least the minimum radius, covers the outer distance of every active source and is below the maximum radius unless it is the minimum radius; fixed sources are neighbours, not active, at most the permitted number, and there is at least one whenever some neighbour is not active.", "quantifier": "every neighbour list, distance, half-light radius and limit setting", "why_tests_cant": "Involves sorting an arbitrary neighbour list; only a proof covers all ties and sizes.", "anchors": ["forcepho/superscene.py:SuperScene.get_circular_scene"]}
{"id": "C06", "title": "A source in use by an outstanding patch is never marked valid", "statement": "At every point of every history, a source that is active or fixed in some outstanding patch is marked not valid ('Sources in regions that are checked out have their sources unavailable for further checkouts, until they are checked back in').", "quantifier": "every catalog and finite history", "why_tests_cant": "Breaks only for particular overlapping checkout/check-in interleavings.", "anchors": ["forcepho/superscene.py:SuperScene", "forcepho/superscene.py:SuperScene.checkout_region", "forcepho/superscene.py:SuperScene.checkin_region"]}
{"id": "C07", "title": "Seed weights favour available, under-sampled sources", "statement": "The seed weights form a probability vector; a source that is not valid has weight zero; and among valid sources one with fewer iterations never has a smaller weight.", "quantifier": "every non-empty catalog with any mixture of flags and iteration counts", "why_tests_cant": "Quantifies over all flag/count combinations and involves integer bit complement.", "anchors": ["forcepho/superscene.py:SuperScene.exp_weight", "forcepho/superscene.py:SuperScene.sigmoid_weight", "forcepho/superscene.py:sourcecat_dtype"]}
{"id": "C08", "title": "Friends-of-friends growth returns exactly the linked set", "statement": "Growing a source always terminates and returns, without repeats, exactly the sources that can be reached from it by a chain of sources each overlapping the next.", "quantifier": "every finite overlap relation and every starting source", "why_tests_cant": "Reachability and termination over arbitrary graphs cannot be enumerated.", "anchors": ["forcepho/superscene.py:LinkedSuperScene.grow_source", "forcepho/superscene.py:LinkedSuperScene.find_overlaps"]}
{"id": "C09", "title": "The group catalog is the partition into linked components", "statement": "Every source gets a group number; two sources get the same number exactly when they are linked by a chain of overlapping regions of influence; the numbers used are 0,1,...,G-1.", "quantifier": "every catalog, position set and set of radii of influence", "why_tests_cant": "Depends on symmetry of the overlap search for all radii, and on all graphs.", "anchors": ["forcepho/superscene.py:LinkedSuperScene.make_group_catalog", "forcepho/superscene.py:LinkedSuperScene.find_overlaps"]}
{"id": "C10", "title": "Shape of a linked patch", "statement": "When the linked scene server grants a patch: the active list has no repeats, at most the permitted number of sources and includes the seed whenever the seed's group fits; fixed sources are disjoint from active ones, without repeats and at most the permitted number; the region radius is at least the minimum and encloses the region of influence of every active source plus the buffer; in strict mode, unless the very first group is too big, every group is taken whole or not at all.", "quantifier": "every catalog, geometry, seed, limit and strictness setting", "why_tests_cant": "Greedy group packing over arbitrary graphs.", "anchors": ["forcepho/superscene.py:LinkedSuperScene.grow_scene", "forcepho/superscene.py:LinkedSuperScene.checkout_region"]}
{"id": "C11", "title": "A source is never being fitted in two patches at once (linked scene server)", "statement": "As C01, for the friends-of-friends scene server.", "quantifier": "every catalog, geometry and finite history", "why_tests_cant": "Needs chains of links that leave the neighbourhood that is checked for active sources.", "anchors": ["forcepho/superscene.py:LinkedSuperScene.grow_scene", "forcepho/superscene.py:LinkedSuperScene.checkout_region"]}
{"id": "C12", "title": "Work queue: every child is idle or busy, every task's result is returned once", "statement": "Under any sequence of submissions and collections (any subset of outstanding requests completing in any order), every child is in exactly one of the idle and busy lists, each outstanding request belongs to exactly one busy child, each submitted task's result is handed back exactly once, attributed to the child it was sent to, submission fails exactly when no child is idle, and close-out succeeds exactly when nothing is outstanding.", "quantifier": "every number of children and every sequence of operations with arbitrary completion subsets", "why_tests_cant": "Completion order is nondeterministic; the index arithmetic of parallel lists must be right for every subset.", "anchors": ["forcepho/dispatcher.py:MPIQueue.collect", "forcepho/dispatcher.py:MPIQueue.submit", "forcepho/dispatcher.py:MPIQueue.closeout"]}
{"id": "C13", "title": "Dispatch loop: results are checked in, under their own task, and the loop cannot fail", "statement": "In every execution of the parent loop with at least one child: no submission is attempted without an idle child, no collection is attempted with nothing outstanding, every result that a child returns is checked into the catalog, with the label of the task that produced it.", "quantifier": "every schedule of child completions and every outcome of the checkout attempts", "why_tests_cant": "A race property: depends on which results arrive together and on what is outstanding when the loop ends.", "anchors": ["forcepho/dispatcher.py:do_parent", "forcepho/dispatcher.py:MPIQueue"]}
{"id": "C14", "title": "Setting then reading a scene's parameter vector is the identity", "statement": "For a scene with any mixture of active source kinds, setting all parameters from a vector of the right length and reading them back gives the same vector, each source receives its own consecutive slice, inactive sources are unchanged and the consumed length equals the sum of the per-source parameter counts.", "quantifier": "every list of sources of the concrete kinds (galaxy, simple galaxy, star, conformal-shear galaxy, with or without free profile), every number of bands, every parameter vector", "why_tests_cant": "Slice offsets accumulate over arbitrarily many heterogeneous sources.", "anchors": ["forcepho/sources.py:Scene.set_all_source_params", "forcepho/sources.py:Scene.get_all_source_params", "forcepho/sources.py:Galaxy.set_params", "forcepho/sources.py:Star.set_params", "forcepho/sources.py:SimpleGalaxy", "forcepho/sources.py:ConformalShearGalaxy.set_params"]}
{"id": "C15", "title": "The stacked gradient is laid out like the parameter vector", "statement": "Entry k of the stacked gradient is the derivative for entry k of the parameter vector: fluxes of source s in band b take exactly the kernel's flux derivative of (band b, source s), and each position/shape parameter takes the sum over bands of the kernel's derivative for it.", "quantifier": "every number of sources and bands and every kernel response", "why_tests_cant": "Index bookkeeping over arbitrary sizes.", "anchors": ["forcepho/model.py:FastPosterior.stack_grad", "forcepho/proposal.py:CPUProposer.evaluate_proposal"]}
{"id": "C16", "title": "Bounds, proposals and chain catalogs use the parameter-vector layout", "statement": "The lower/upper bound vectors, the proposal records sent to the kernel and the catalog built from a chain all agree with the parameter vector: the entry for (source, column) is the same position in each, for every set of bands and sources.", "quantifier": "every number of sources, bands, samples", "why_tests_cant": "Cross-module layout agreement over all sizes.", "anchors": ["forcepho/superscene.py:bounds_vectors", "forcepho/sources.py:Scene.get_proposal", "forcepho/utils/chain.py:make_chaincat"]}
{"id": "C17", "title": "Bounded transform maps onto the open box and is invertible", "statement": "For lower < upper the transform of any unconstrained vector lies strictly between the bounds, the inverse of the transform is the original vector, the transform of the inverse of any point strictly inside the box is that point, and the transform is strictly increasing.", "quantifier": "every real vector and all bounds with lower < upper", "why_tests_cant": "Statement over the reals.", "anchors": ["forcepho/model.py:BoundedTransform.transform", "forcepho/model.py:BoundedTransform.inverse_transform"]}
{"id": "C18", "title": "The sampled log-posterior gradient is the derivative of the sampled log-posterior", "statement": "If the likelihood gradient is the derivative of the likelihood and the prior gradient of the prior, then the gradient returned in the unconstrained space, with or without the sampling Jacobian term, is the derivative of the value returned, for every coordinate.", "quantifier": "every differentiable likelihood and prior, all bounds lower < upper, every point, both settings of the sampling switch", "why_tests_cant": "Derivative statement over the reals.", "anchors": ["forcepho/model.py:Posterior.lnprob_and_grad", "forcepho/model.py:BoundedTransform.jacobian", "forcepho/model.py:BoundedTransform.lndetjac", "forcepho/model.py:BoundedTransform.lndetjac_grad"]}
{"id": "C19", "title": "Barrier prior gradient is the derivative of the barrier prior", "statement": "For the exponential-beta barrier prior, the returned gradient is the derivative of the returned log-prior at every point strictly inside the bounds, the log-prior is symmetric about the box centre and decreases without bound toward each bound.", "quantifier": "every box, exponent and interior point", "why_tests_cant": "Statement over the reals.", "anchors": ["forcepho/priors.py:ExpBeta"]}
{"id": "C20", "title": "Per-pixel kernel derivatives are the derivatives of the per-pixel model", "statement": "For an image-plane Gaussian with pixel-integration correction, the six derivative sums the kernel uses are the derivatives of the rendered counts with respect to amplitude, centre and the three inverse-covariance entries, at every pixel where the exponent cutoff does not apply; where it applies both model and derivatives are zero.", "quantifier": "every pixel position and Gaussian", "why_tests_cant": "Calculus statement over the reals.", "anchors": ["forcepho/src/common_kernel.cc:ComputeResidualImage", "forcepho/src/common_kernel.cc:ComputeGaussianDerivative"]}
{"id": "C21", "title": "The kernel's chi-square gradient is the derivative of its chi-square in the sky parameters", "statement": "The map from sky parameters (flux, RA, Dec, axis ratio, position angle, and the mixture amplitudes through Sersic index and half-light radius) to image Gaussians is differentiated exactly by the stored Jacobian, so the accumulated gradient of -chi^2/2 is the derivative of -chi^2/2 whenever no pixel sits on the exponent cutoff.", "quantifier": "every source with positive axis ratio, non-zero flux and amplitudes, positive-definite total covariance, every set of pixels", "why_tests_cant": "Calculus statement over the reals and sums over arbitrarily many pixels, exposures and Gaussians.", "anchors": ["forcepho/src/common_kernel.cc:GetGaussianAndJacobian", "forcepho/src/compute_gaussians_kernel.cc:EvaluateProposal"]}
{"id": "C22", "title": "Masked and padding pixels never influence the fit", "statement": "Pixels with zero inverse error contribute exactly zero to chi-square and to every gradient entry, whatever their data and position; chi-square is the sum over pixels of (residual^2 - data^2)/sigma^2; and both are independent of how pixels are divided into exposures of a band or ordered within it.", "quantifier": "every pixel list and scene", "why_tests_cant": "Ranges over all masks, paddings and orders.", "anchors": ["forcepho/src/compute_gaussians_kernel.cc:EvaluateProposal"]}
{"id": "C23", "title": "The compiled kernel renders the same image as the reference renderer", "statement": "For every source and PSF, the counts rendered at a pixel by the fast kernel equal those of the slow reference renderer fed the same parameters, except for terms beyond the exponent cutoff, whose total is bounded by the sum of the dropped terms.", "quantifier": "every source, PSF mixture, WCS matrices and pixel position", "why_tests_cant": "Equality of two independently coded formulas over the reals.", "anchors": ["forcepho/src/common_kernel.cc", "forcepho/slow/gaussmodel.py:convert_to_gaussians", "forcepho/slow/gaussmodel.py:_compute_gaussian"]}
{"id": "C24", "title": "Conformal-shear parameters round-trip and differentiate correctly", "statement": "Converting (axis ratio, position angle) to conformal shear and back is the identity for sqrt-axis ratio in (0,1) and angle in the principal interval, and the reported derivatives of axis ratio and angle with respect to shear are the true derivatives.", "quantifier": "every axis ratio and angle in range", "why_tests_cant": "Statement over the reals.", "anchors": ["forcepho/sources.py:ConformalShearGalaxy"]}
{"id": "C25", "title": "Packed pixel buffers index back to the original exposures", "statement": "After packing, the start/length tables cut the flat pixel buffers into consecutive non-overlapping pieces covering them exactly; piece e is the data of exposure e; the band tables cut the exposure list the same way; and splitting any flat array with these tables then concatenating returns it.", "quantifier": "every number of bands, exposures per band (including zero) and pixels per exposure", "why_tests_cant": "Index arithmetic over arbitrary shapes.", "anchors": ["forcepho/patches/pixel_patch.py:PixelPatch.pack_pix", "forcepho/patches/patch.py:Patch.split_pix", "forcepho/patches/patch.py:Patch.split_band", "forcepho/proposal.py:ProposerBase.unpack_residuals"]}
{"id": "C26", "title": "Super-pixel storage is a rearrangement of the image", "statement": "Storing an image in super-pixel order puts the value of pixel (x, y) at the position where the coordinate tables say (x, y), each pixel exactly once, for every image whose sides are multiples of the super-pixel side.", "quantifier": "every image size divisible by the super-pixel side and every super-pixel side", "why_tests_cant": "Reshape/transpose index arithmetic over arbitrary sizes.", "anchors": ["forcepho/patches/storage.py:PixelStore.superpixelize", "forcepho/patches/storage.py:PixelStore.pixel_coordinates", "forcepho/patches/storage.py:PixelStore.superpixel_corners"]}
{"id": "C27", "title": "Bad pixels are stored with zero weight and finite values", "statement": "Whatever the input image, uncertainty and mask contain (NaN, infinities, non-positive uncertainties, flagged bits), every stored data value and inverse error is finite, the inverse error is non-negative, zero for every pixel that is masked or whose inputs are not usable, and usable pixels keep their background-subtracted calibrated value and the reciprocal of the scaled uncertainty.", "quantifier": "every combination of pixel values including IEEE special values", "why_tests_cant": "All combinations of special values per pixel.", "anchors": ["forcepho/patches/storage.py:PixelStore.add_exposure"]}
{"id": "C28", "title": "S/N cap bounds every pixel's significance and nothing else", "statement": "With a cap S the packed inverse errors satisfy |data|*ierr <= S, pixels already below the cap are unchanged, masked pixels stay masked, and capping twice equals capping once.", "quantifier": "every pixel value and cap", "why_tests_cant": "Statement over all reals.", "anchors": ["forcepho/patches/pixel_patch.py:PixelPatch._cap_snr"]}
{"id": "C29", "title": "Fixed sources are each subtracted exactly once", "statement": "After preparing a patch with any number of fixed sources, in any division into device-sized blocks, the data the active fit sees is the original data minus the sum of all fixed source models, each subtracted exactly once, with the metadata of the active scene in place and no block exceeding the device limit.", "quantifier": "every number of fixed and active sources and every device limit >= 1", "why_tests_cant": "Buffer-swapping over an arbitrary number of blocks.", "anchors": ["forcepho/patches/device_patch.py:DevicePatchMixin.subtract_fixed", "forcepho/patches/device_patch.py:DevicePatchMixin.prepare_model", "forcepho/patches/device_patch.py:CPUPatchMixin.swap_on_device", "forcepho/patches/device_patch.py:GPUPatchMixin.swap_on_device"]}
{"id": "C30", "title": "Linear flux optimisation returns the least-squares fluxes", "statement": "For any design matrix, data and inverse errors, a flux vector solving the normal equations assembled by the code minimises the weighted sum of squared residuals over all flux vectors, masked pixels have no influence, and the reported precision matrix is symmetric positive semi-definite.", "quantifier": "every design matrix size and content", "why_tests_cant": "Optimality over all alternatives.", "anchors": ["forcepho/fitting.py:optimize_one_band", "forcepho/fitting.py:optimize_fluxes"]}
{"id": "C31", "title": "Polygon tests are sound", "statement": "If the overlap test says two convex polygons do not overlap then no point is common to both hulls; for axis-aligned rectangles with non-empty interior the test is exact; the containment test reports inside for every point strictly inside a counter-clockwise convex polygon and outside for every point separated by an edge.", "quantifier": "all vertex lists and points", "why_tests_cant": "Geometry over the reals/rationals.", "anchors": ["forcepho/region.py:polygons_overlap", "forcepho/region.py:polygon_contains", "forcepho/region.py:RectangularRegion.contains", "forcepho/region.py:CircularRegion.contains"]}
{"id": "C32", "title": "Position angles end up in the principal interval", "statement": "Converting position angles returns values in [-pi/2, pi/2] that differ from the input (after the requested rotation/reversal) by a multiple of pi.", "quantifier": "every input angle and option setting", "why_tests_cant": "Every real angle.", "anchors": ["forcepho/superscene.py:convert_pa", "forcepho/superscene.py:rectify_catalog"]}
{"id": "C33", "title": "Generated bounds contain the catalog and the check detects violations", "statement": "The bounds check passes exactly when every parameter of every source is strictly inside its bounds, and the bounds generated for a catalog contain its positions and fluxes strictly, for all fluxes of either sign including zero.", "quantifier": "every catalog with any fluxes", "why_tests_cant": "Every flux value, sign and catalog length.", "anchors": ["forcepho/superscene.py:make_bounds", "forcepho/superscene.py:flux_bounds", "forcepho/superscene.py:check_bounds", "forcepho/superscene.py:adjust_bounds", "forcepho/superscene.py:rectify_catalog"]}
{"id": "C34", "title": "Per-source covariance blocks survive assembly and extraction", "statement": "Assembling per-source covariance matrices into one block-diagonal matrix and extracting the blocks again returns the same matrices in the same order, and off-block entries are zero.", "quantifier": "every number and size of blocks", "why_tests_cant": "Index arithmetic over arbitrary sizes.", "anchors": ["forcepho/superscene.py:SuperScene.bounds_and_covs", "forcepho/utils/__init__.py:extract_block_diag"]}
{"id": "C35", "title": "Chain catalogs hold every sample of every parameter once", "statement": "Converting a chain to a catalog and reading sample i back gives the parameters of sample i for every source and column, with positions shifted by the reference coordinates, and nothing else changed.", "quantifier": "every chain shape", "why_tests_cant": "Index arithmetic over arbitrary sizes.", "anchors": ["forcepho/utils/chain.py:make_chaincat", "forcepho/utils/chain.py:get_sample_cat"]}
{"id": "C36", "title": "Momentum reflection keeps trajectories inside the box", "statement": "For bounds with lower < upper, reflecting an out-of-bounds position terminates and returns a position within the bounds, flips the momentum sign once per reflection of that coordinate, and leaves in-bounds coordinates untouched.", "quantifier": "every position, momentum and box", "why_tests_cant": "Termination and parity for every starting distance.", "anchors": ["forcepho/model.py:Posterior.check_constrained"]}
{"id": "C37", "title": "Configuration precedence", "statement": "The effective value of every option is the command-line value if the option was given on the command line, otherwise the configuration-file value if present, otherwise the default.", "quantifier": "every option set, file content and command line, in either the '--k v' or '--k=v' form", "why_tests_cant": "All combinations of sources and spellings.", "anchors": ["forcepho/config.py:parse_all", "forcepho/config.py:update_config", "forcepho/config.py:new_args"]}
{"id": "C38", "title": "Posterior evaluations are never stale", "statement": "Whatever sequence of value, gradient, negative-log-posterior and residual requests, parameter vector changes and switch changes is made, each answer equals the freshly computed one for the parameters passed.", "quantifier": "every finite history of requests, including in-place modification of the caller's vector and toggling of the sampling switch", "why_tests_cant": "Caching bugs appear only in particular histories.", "anchors": ["forcepho/model.py:Posterior.lnprob", "forcepho/model.py:Posterior.lnprob_grad", "forcepho/model.py:Posterior.evaluate", "forcepho/model.py:FastPosterior.evaluate"]}
{"id": "C39", "title": "Coordinate zero-pointing is reversible", "statement": "Zeroing a scene's coordinates and undoing it restores the positions, the reference used is recorded for later chains, and preparing the same patch again yields the same absolute positions.", "quantifier": "every scene and number of preparations", "why_tests_cant": "Histories of repeated preparation.", "anchors": ["forcepho/patches/patch.py:Patch.zerocoords", "forcepho/patches/patch.py:Patch.unzerocoords", "forcepho/patches/patch.py:Patch.pack_meta"]}
{"id": "C40", "title": "Combined residual images and catalogs take the latest patch for each pixel or source", "statement": "Filling images patch by patch gives each pixel the value from the last patch that contains it and leaves untouched pixels at their fill value; combining chains gives each source the chain from the last patch in which it was active.", "quantifier": "every list of patches and pixel lists", "why_tests_cant": "All overlaps and orders.", "anchors": ["forcepho/postprocess.py:Residuals.fill_images", "forcepho/postprocess.py:postsample_catalog", "forcepho/utils/__init__.py:populate_image"]}
{"id": "C41", "title": "Packed PSF tables serve every exposure the right Gaussians", "statement": "In the packed table, the group of rows that the kernel reads for exposure e is the PSF of e's band expanded over the source radii, for every band and exposure, and the number of rows per source is the same for all exposures of a band.", "quantifier": "every number of bands, exposures and PSF components", "why_tests_cant": "Offset arithmetic over arbitrary shapes.", "anchors": ["forcepho/patches/patch.py:Patch._pack_psf", "forcepho/patches/storage.py:PSFStore.lookup"]}
{"id": "C42", "title": "Exposure search misses no overlapping exposure", "statement": "Every exposure whose pixel area intersects the patch region is returned by the exposure search, and its pixels inside the region are packed.", "quantifier": "every region and exposure footprint", "why_tests_cant": "Geometric completeness over all regions and footprints.", "anchors": ["forcepho/patches/storage.py:MetaStore.find_exposures", "forcepho/patches/pixel_patch.py:StorePatch.find_exposures", "forcepho/region.py:CircularRegion.contains"]}
{"id": "C43", "title": "GPU warp reduction equals the sequential sum", "statement": "Summing per-pixel contributions with the warp-shuffle tree over pixels padded to a multiple of the warp size gives the same total as the sequential loop, for any number of threads per block that is a multiple of the warp size.", "quantifier": "every number of pixels, block size and values", "why_tests_cant": "Loop-stride and tree index arithmetic over arbitrary sizes.", "anchors": ["forcepho/src/compute_gaussians_kernel.cu:Accumulator", "forcepho/src/compute_gaussians_kernel.cu:EvaluateProposal", "forcepho/patches/pixel_patch.py:FITSPatch.find_pixels"]}
{"id": "C44", "title": "Parameter indices of one source select that source's parameters", "statement": "Indexing the scene's parameter vector with the indices reported for source i in band f gives exactly the single-band parameter vector of source i.", "quantifier": "every scene, source and band, with and without inactive sources", "why_tests_cant": "Offsets depend on all sources in front, active or not, of any kind.", "anchors": ["forcepho/sources.py:Scene.param_indices"]}
{"id": "C45", "title": "Each source is rendered with the PSF packed for it", "statement": "The PSF Gaussians the likelihood kernel uses for source i in exposure e are the ones the PSF store supplied for that source and that exposure's band.", "quantifier": "every number of sources, exposures and PSF components", "why_tests_cant": "The packed table has one group of rows per exposure and source; only a per-source PSF would expose a wrong offset.", "anchors": ["forcepho/patches/patch.py:Patch._pack_psf", "forcepho/src/compute_gaussians_kernel.cc:CreateImageGaussians", "forcepho/patches/storage.py:PSFStore.get_local_psf"]}
{"id": "C46", "title": "Storing an exposure again stores the same data", "statement": "Adding the same image set to the pixel store a second time leaves the stored pixel data as they were.", "quantifier": "every image, background, mask and calibration option", "why_tests_cant": "Depends on what the first call did to the caller's arrays, for every combination of options.", "anchors": ["forcepho/patches/storage.py:PixelStore.add_exposure"]}
{"id": "C47", "title": "Fitting a PSF image by expectation maximisation improves it and keeps its moments", "statement": "Every pass of the fit leaves the image-weighted log likelihood no lower than before; the answer returned has positive amplitudes that sum to one, positive widths, correlation strictly between -1 and 1 and means inside the image; every pass makes the mixture's centroid and covariance equal those of the image; and a fit is returned for every repeat.", "quantifier": "every non-negative image, starting mixture, number of components, convergence threshold and pass limit", "why_tests_cant": "Monotonicity is an inequality (Gibbs) over all images and all iterates; a test sees one image and one seed.", "anchors": ["forcepho/mixtures/psf_mix_em.py:fit_mvn_mix", "forcepho/mixtures/utils_em.py:psf_mixture"]}
{"id": "C48", "title": "Stored astrometry reproduces the image's world coordinate system near each source", "statement": "The local matrix computed at a source is the derivative of sky to pixel scaled to arcseconds, whichever of the two ways of computing it is taken; positions converted with what a patch stored agree with the image's world coordinates for every source; conversion by a postage stamp is undone by the opposite conversion.", "quantifier": "every world coordinate system (affine exactly, differentiable in the limit), position and list of sources", "why_tests_cant": "The step is finite and the approximation holds in a limit; RA wraps and differing source lists are rare.", "anchors": ["forcepho/utils/wcs.py:scale_at_sky", "forcepho/utils/wcs.py:sky_to_pix", "forcepho/patches/patch.py:Patch._pack_astrometry", "forcepho/slow/stamp.py:PostageStamp"]}
{"id": "C49", "title": "Residuals written to a file are read back per exposure unchanged", "statement": "Writing a patch's pixels and one residual array per exposure and loading an exposure from the file gives back that exposure's own pixel coordinates, data, uncertainties, residuals and astrometry.", "quantifier": "every patch, number of exposures, pixels per exposure and residual arrays, including repeated exposure names", "why_tests_cant": "Offsets accumulate over all exposures in front, and name collisions depend on user input.", "anchors": ["forcepho/utils/io.py:write_residuals", "forcepho/utils/io.py:make_imset", "forcepho/patches/patch.py:Patch.split_pix", "forcepho/postprocess.py:Residuals.make_exp"]}
{"id": "C50", "title": "Sersic profile helpers agree with the Sersic law", "statement": "The fraction of flux inside the half light radius is one half and grows with radius to one; a Sersic profile with the computed effective brightness contains the given flux (in total, or inside the radius the flux was measured in); the profile has the requested brightness at the isophotal radius; the Kron radius is the first moment of the profile divided by its flux, also when cut at a maximum radius.", "quantifier": "every positive index, half light radius, flux, brightness and cut radius", "why_tests_cant": "Identities between incomplete gamma functions and integrals over all radii; spot values hide wrong normalisations.", "anchors": ["forcepho/utils/profile.py:frac_sersic", "forcepho/utils/profile.py:kron_radius", "forcepho/utils/profile.py:isophotal_radius", "forcepho/utils/profile.py:I_eff"]}
{"id": "C51", "title": "The reference likelihood is minus half the chi-square and its gradient is its derivative", "statement": "For a parameter vector the python likelihood of a scene on a list of stamps is minus half the chi-square of data minus the images of all sources, each entry of the gradient returned with it is the derivative of that value in that entry, and the two implementations of a stamp's likelihood agree.", "quantifier": "every scene, parameter vector, list of stamps and pixels, in any order of calls, away from points where the image is not differentiable", "why_tests_cant": "Gradients pass through per-stamp index arrays and Jacobians; finite differences at a few points with one stamp cannot settle the layout.", "anchors": ["forcepho/slow/likelihood.py:lnlike_multi", "forcepho/slow/likelihood.py:plan_sources", "forcepho/slow/likelihood.py:FastWorkPlan", "forcepho/slow/gaussmodel.py:compute_gaussian"]}
{"id": "C52", "title": "Fits report what they found and hand it on inside the bounds", "statement": "An optimisation returns one vector inside the bounds whose posterior probability is no lower than that of the start and reports its logarithm; a sampling run returns vectors inside the bounds, as many as asked for besides the tuning samples, and the best of them on request; the mass matrix given to the sampler is positive definite; and the catalog and bounds an optimisation task hands on let the sampling task start strictly inside the bounds at the optimum.", "quantifier": "every posterior, box of bounds, start, optimiser and sampler that keep their own contract, covariance, catalog and bounds catalog", "why_tests_cant": "Depends on what third-party optimisers and samplers return and on every transform and bound; one run samples one path.", "anchors": ["forcepho/fitting.py:run_opt", "forcepho/fitting.py:run_lmc", "forcepho/fitting.py:get_pot", "forcepho/fitting.py:get_map", "forcepho/tasks.py:optimize", "forcepho/tasks.py:sample"]}
{"id": "C53", "title": "Percentiles and error bars summarise the samples they are given", "statement": "pctile_cat keeps every column name, every scalar column and the row order, and replaces each row of samples by exactly its requested percentiles, in the order asked for: each percentile lies between neighbouring order statistics at its fractional rank, does not depend on the order of the samples, never decreases with the percentage, reaches the extremes at 0 and 100, scales with the units, and leaves at least the stated share of samples on each side. get_spans returns for each parameter an interval holding the stated fraction of its samples (one sample short at most), and keeps explicit intervals. Weighted quantiles depend only on ratios of weights, agree with the unweighted ones when weights are equal and respond to the weight of every sample.", "quantifier": "for all non-empty sample sets, all lists of percentiles or probabilities in range, all non-negative weights, all catalogs of scalar and sampled columns", "why_tests_cant": "An ordering or weighting property over all sample sets of all sizes; a test compares a few arrays, and ignoring one sample's weight is invisible for large samples with similar weights.", "anchors": ["forcepho/utils/catalog.py:pctile_cat", "forcepho/utils/corner.py:get_spans", "forcepho/utils/corner.py:quantile", "forcepho/utils/corner.py:_quantile"]}
{"id": "C54", "title": "Catalogs derived from fits keep the flux, the sources and the uncertainties", "statement": "combine_chains turns each group of sources into one row whose flux in every band and sample is the sum of the members' fluxes and whose position is among the members' positions; grouping all sources once conserves the total flux, the order of members is irrelevant and each row and header entry is found under the name of its group, whether ids are text or integers. append_catalogs writes for each kind of table the rows of all files one after the other. flux_unc_linear gives every source in every band an uncertainty: from the precision matrix of the last patch it was fitted in, never implying a signal to noise ratio above snr_max, and a default where there is no precision matrix.", "quantifier": "for all catalogs of chains of any length, all groupings, all lists of files and extensions, all sets of patches in any order, all fluxes and precision matrices", "why_tests_cant": "Conservation over all groupings and last-patch-wins over all patch orders cannot be enumerated; id types and extension names differ between the files tests make and those runs write.", "anchors": ["forcepho/utils/catalog.py:combine_chains", "forcepho/utils/catalog.py:append_catalogs", "forcepho/utils/catalog.py:out_dtype", "forcepho/postprocess.py:flux_unc_linear"]}
{"id": "C55", "title": "A saved result is loaded as it was", "statement": "Saving the result of a fit and loading the file gives back every attribute: arrays, numbers and text unchanged, lists as arrays; an attribute that could not be saved is named in the returned messages, and nothing else is missing or new. The loaded result offers band and shape names as text, the region of the fit, and the chain catalog, also when only the raw chain was saved; keyword arguments win. A fit filled and written by a child is found with its sources, exposures, chain, catalogs and configuration. Saving a loaded result and loading it again changes nothing.", "quantifier": "for all results with any number of attributes of any kind and size, all regions, patches and configurations", "why_tests_cant": "Which attributes are arrays, lists, None or too large depends on the fit; a test saves one result, and a silently dropped attribute is noticed only by a later reader.", "anchors": ["forcepho/fitting.py:dump_to_h5", "forcepho/fitting.py:read_from_h5", "forcepho/fitting.py:_reconstruct", "forcepho/fitting.py:fill", "forcepho/utils/io.py:write_to_disk"]}
{"id": "C56", "title": "Images and region files of a run cover every exposure and patch", "statement": "Writing the images of a run gives, for every exposure of every patch, a data and a residual image, and on request a model image (data minus residual) and a chi image (residual over uncertainty), named after the exposure, of its size and with its header; at each pixel all of them show the last patch that has the pixel, NaN where none has, and no other file changes. The patch region file has one circle for each patch, labelled with its number. The residual pages show every patch.", "quantifier": "for all runs: any number of patches, exposures, pixels and image sizes, any names", "why_tests_cant": "Overlapping patches and colliding base names occur only in large runs; the pages and labels go wrong only for particular numbers of patches.", "anchors": ["forcepho/postprocess.py:write_images", "forcepho/postprocess.py:fill_images", "forcepho/postprocess.py:write_patchreg", "forcepho/postprocess.py:residual_pdf"]}
{"id": "C57", "title": "Catalogs and names of a scene identify its sources and parameters", "statement": "Writing a scene as a catalog gives one row per source, in order, with its number, its flux in each filter, its shape parameters and the extra attributes asked for, each under its own name; building a scene from that catalog gives the same sources with the same parameters, numbered in order, and writing it again gives the same catalog. The names of the parameters are all different, and the name at each place of the list is that of the parameter at that place of the scene's parameter vector.", "quantifier": "for all scenes of any number of sources of any class with any filters, all extra columns, all values", "why_tests_cant": "Single precision columns, classes without a matching constructor and fixed sources show only for particular scenes; distinctness of names must hold for all filter names and numbers of sources.", "anchors": ["forcepho/sources.py:to_catalog", "forcepho/sources.py:from_catalog", "forcepho/sources.py:to_catalog_row", "forcepho/sources.py:from_catalog_row", "forcepho/sources.py:parameter_names"]}
{"id": "C58", "title": "The PSF that is used is the mixture that was fitted", "statement": "The PSF mixture used for rendering has at every detector position the value of the mixture fitted to the oversampled PSF image at the corresponding position, times the square of the oversampling: for fits made by EM and read by get_psf, for the tables psf_mixture writes, and for fits made by sampling and stored with make_psf (with negative gaussians subtracted and the background left out), with the same total flux. Storing one band leaves the others alone, combining files keeps every band, rescaling changes the pixel scale only and blurring is smoothing by a round gaussian. Every file these programs write can be read back.", "quantifier": "for all numbers of gaussians, all positions, widths, correlations, weights, backgrounds, all oversamplings and centres, all sizes of images, all numbers of bands", "why_tests_cant": "Equality of the mixtures is needed at all positions for all parameters; the axis swaps and the factors of the oversampling cancel in symmetric examples.", "anchors": ["forcepho/slow/psf.py:get_psf", "forcepho/slow/psf.py:make_psf", "forcepho/slow/psf.py:as_tuplelist", "forcepho/mixtures/utils_em.py:psf_mixture", "forcepho/mixtures/psf_mix_hmc.py:psf_prediction", "demo/demo_psf/make_jwst_psf/make_psf.py:convert_psf_data", "demo/demo_psf/make_jwst_psf/make_psf.py:package_output", "demo/demo_psf/make_jwst_psf/make_psf.py:combine_psfdatasets", "demo/demo_psf/make_jwst_psf/make_psf.py:blur_psf_data"]}
{"id": "C59", "title": "Exposures keep their identity, headers and pixels", "statement": "Every image file added to the stores is one exposure: different files get different identifiers, under which afterwards the metadata store has the file's header and the pixel store its pixels, whatever is added before or after; the number of exposures is the number of files. Writing the metadata store and reading it back gives the same exposures in the same order with the same headers and coordinate systems, and the exposure table has one row for each exposure with its values. Calibrated pixels are in nJy, the same in all exposures of a source, with unchanged significance.", "quantifier": "for all directories and file names, all numbers of files and bands, all orders of adding them, all headers, all zero points", "why_tests_cant": "Whether two of all possible paths collide, or deleting one group removes another, depends on how the names are nested; tests use a few flat names.", "anchors": ["forcepho/patches/storage.py:header_to_id", "forcepho/patches/storage.py:PixelStore.add_exposure", "forcepho/patches/storage.py:PixelStore.flux_calibration", "forcepho/patches/storage.py:MetaStore.add_exposure", "forcepho/patches/storage.py:MetaStore.write_to_file", "forcepho/patches/storage.py:MetaStore.read_from_file", "forcepho/patches/storage.py:MetaStore.to_table"]}
{"id": "C60", "title": "A galaxy has the light of the Sersic profile fitted for it", "statement": "A galaxy whose Sersic index and half-light radius are a point of the mixture table has the amplitudes that were fitted for that point, in the order of the table's radii, whatever the order in which the grid was written; at any index and radius the amplitudes add up to one, so the profile integrates over the plane to the galaxy's flux; the derivatives of the amplitudes handed to the sampler are the derivatives of the amplitudes; amplitudes change continuously with index and radius. The mixture that was compared with the Sersic profile is the surface brightness of the gaussians that are stored, smoothed as asked, its curve of growth rises from the point sources to one, the misfit is zero exactly for a perfect fit, and the smoothness penalty is zero for level amplitudes.", "quantifier": "for all grids of index and radius, all sets of radii and smoothing, all outcomes of the fits, all interpolating splines, all indices and radii of the galaxy, inside or outside the table", "why_tests_cant": "That a grid reshaped by its unique values lines up with its labels, and that fluxes are conserved between and beyond grid points, are statements about every grid and a continuum of parameters; tests evaluate a few points of the shipped table.", "anchors": ["forcepho/mixtures/sersic_mix_oned.py:chisq", "forcepho/mixtures/sersic_mix_oned.py:gauss_cfd", "forcepho/mixtures/sersic_mix_oned.py:fit_profiles", "forcepho/sources.py:Galaxy.initialize_splines", "forcepho/sources.py:Galaxy.amplitudes", "forcepho/sources.py:Galaxy.damplitude_drh", "forcepho/sources.py:Galaxy.profile"]}
{"id": "C61", "title": "A patch made of postage stamps holds every stamp and every source", "statement": "A patch built from stamps sorted by band holds the pixels of every stamp, in order, as one run padded with zeros to a multiple of 32, where its start and length say; every exposure is counted to its own band; the PSF gaussians, scale and distortion matrices and reference positions of each source in each exposure stand where the GPU code looks for them, also for scenes with fixed sources; a scene with the wrong number of gaussians is rejected; the mask leaves out masked pixels; and a patch can be turned back into its stamps.", "quantifier": "for all numbers of stamps, bands, sources and radii, all stamp sizes, all pixel values, all numbers of gaussians per band", "why_tests_cant": "Offsets are right for all combinations of sizes only if the invariant of the packing loops holds; equal sizes and equal numbers of gaussians hide a wrong offset.", "anchors": ["forcepho/patches/static_patch.py:pack_pix", "forcepho/patches/static_patch.py:pack_psf", "forcepho/patches/static_patch.py:pack_astrometry", "forcepho/patches/static_patch.py:pack_source_metadata", "forcepho/patches/static_patch.py:patch_to_stamps", "forcepho/sources.py:psfgauss"]}
{"id": "C62", "title": "A stamp's pixels, its file and its model image agree", "statement": "Pixel (x, y) of a stamp is one entry of its values, uncertainties, coordinates and residuals, the same in all of them. Writing a stamp to FITS puts that pixel in row y and column x, its uncertainty as the reciprocal of the stored inverse, and the scale, reference pixel and reference position in the header in FITS conventions; a stamp whose scale matrix can be inverted can be written, and writing leaves the stamp as it was: sky positions convert to the same pixels before and after. The model image of a scene on a stamp is at every pixel the sum of the images of all sources, or of the selected ones, with the gradients in the parameters of those sources, and both ways of asking for it agree.", "quantifier": "for all stamp sizes, pixel values, uncertainties, scale matrices, reference pixels and positions, all scenes with active and fixed sources, all selections", "why_tests_cant": "Transposition and offsets of one pixel are invisible in square or symmetric stamps and near the reference pixel; that writing changes an object shows only in what is computed afterwards.", "anchors": ["forcepho/slow/stamp.py:PostageStamp", "forcepho/slow/stamp.py:to_fits", "forcepho/slow/stamp.py:wcs", "forcepho/slow/stamp.py:sky_to_pix", "forcepho/slow/stamp.py:extract_stamp", "forcepho/slow/likelihood.py:make_image", "forcepho/slow/likelihood.py:plan_sources", "forcepho/slow/likelihood.py:WorkPlan"]}
{"id": "C63", "title": "The state of a run survives on disk and starts the next run", "statement": "Writing the scene server's state puts the current catalog under the name of the state file and the logs beside it and changes no other file; a run that fails leaves its state as a finished one does and the failure is reported. Reading a run's directory returns its configuration, the catalog, the tasks in the order they came back and, for each source, the tasks it came back from. A catalog made from an optimisation run can be read for the next run: the same sources in the same order with the same bands, the parameters the optimisation found, and no iterations done; the raw catalog is left alone.", "quantifier": "for all histories of checkouts and check-ins, all directories and file names, all catalogs, bands and headers, any other files present", "why_tests_cant": "File names are made by replacing text in paths, so which file is written depends on all of the path; tests use one name in one directory, and read back what they wrote themselves.", "anchors": ["forcepho/superscene.py:writeout", "forcepho/superscene.py:__exit__", "forcepho/superscene.py:checkin_region", "forcepho/superscene.py:rectify_catalog", "forcepho/postprocess.py:run_metadata", "forcepho/postprocess.py:postop_catalog"]}
{"id": "C64", "title": "A posterior can be built, asked, checked and fitted by every driver", "statement": "A posterior is built from either a transform or a lower and an upper bound for each parameter, and refused otherwise; it then answers with likelihood plus prior, plus the volume term when sampling, with the right gradient, whether or not a prior was given, whichever of the two classes it is. The numerical check of the gradient returns the analytic gradient and central differences that are as close to the true derivatives as the step allows, whatever was asked before, and changes no array of the caller. The nested sampler explores the box it was given with uniform weight and returns vectors of that box with their log-probabilities; bounded optimisation respects the bounds it was given and reports the log-probability of its result.", "quantifier": "for all bounds and transforms, all likelihoods and priors, all dimensions, all histories of earlier requests, all steps, all behaviours of the external optimiser and sampler within their contracts", "why_tests_cant": "The accuracy of the differences is a bound over all smooth functions; that bounds are never used or an object never works is a statement about all arguments; tests build one posterior with bounds away from zero.", "anchors": ["forcepho/model.py:Posterior", "forcepho/model.py:lnprior", "forcepho/model.py:nll_nograd", "forcepho/model.py:check_grad", "forcepho/model.py:SlowPosterior", "forcepho/model.py:FastPosterior", "forcepho/fitting.py:run_opt_bounded", "forcepho/fitting.py:run_dynesty"]}
{"id": "C65", "title": "Priors are what their names say and are drawn from as they are evaluated", "statement": "A flat prior changes neither the log-probability nor its gradient inside its range and gives no probability outside. Numbers drawn from a truncated prior lie in its range and follow its density, and the prior's value at a parameter is the logarithm of that density up to a constant; a prior named after a distribution has that distribution's density; every prior of the module can be built with a range.", "quantifier": "for all ranges, locations, scales of either sign, all numbers of draws and all random numbers, all parameter vectors", "why_tests_cant": "That the draws follow a law is a statement about all thresholds and all random numbers; a histogram cannot tell the wrong tail or the ends of the range.", "anchors": ["forcepho/priors.py:LogPrior", "forcepho/priors.py:ExpBeta", "forcepho/priors.py:Barrier", "forcepho/priors.py:TruncatedCauchy", "forcepho/priors.py:Normal"]}
{"id": "C66", "title": "A parallel run answers every task and ends", "statement": "Whatever the order in which the parent and its children run: every task given to the queue comes back at most once, with the answer to that task from the child it was given to; a child that is given a task is ready to receive it and never holds two; a parent that waits gets an answer after finitely many steps of the children; when everything has come back the queue can be closed, and then every child ends. What a child does with a task produces an answer, and a task can be submitted without choosing a tag.", "quantifier": "for all numbers of children, all tasks, all interleavings of the steps of parent and children, all ways of collecting", "why_tests_cant": "The interleavings of processes cannot be enumerated, and a test with real MPI shows only the ones that happen.", "anchors": ["forcepho/dispatcher.py:MPIQueue", "forcepho/dispatcher.py:do_child", "forcepho/dispatcher.py:dummy_work", "forcepho/dispatcher.py:do_parent"]}
{"id": "C67", "title": "A PSF mixture fit starts from the image and returns its best repeat", "statement": "The start computed from an image is one Gaussian with the flux, centroid and covariance of the image, centred within it, and it exists exactly when the image has flux at two different rows and two different columns. Further components are fitted to what the earlier ones leave, so that together they do not hold more flux than the image. Every answer of a repeated fit reports the likelihood, model image and residual of its own parameters, in fewer steps than the limit; the answer picked is the one with the least residual; both fitting methods return.", "quantifier": "for all images, numbers of components, starting values, numbers of repeats, thresholds and step limits", "why_tests_cant": "Moments hold for every image, and the least residual is over all repeats; that the answer picked belongs to other parameters shows only in a run with several repeats whose first steps fail.", "anchors": ["forcepho/mixtures/psf_mix_em.py:easy_init", "forcepho/mixtures/psf_mix_em.py:cov_params", "forcepho/mixtures/psf_mix_em.py:mean_params", "forcepho/mixtures/psf_mix_em.py:central_moment", "forcepho/mixtures/psf_mix_em.py:fit_mvn_mix"]}
{"id": "C68", "title": "Catalogs exchanged with other tools keep the place, size, shape and orientation of sources", "statement": "The regions made from a catalog are one ellipse per source, in order, at the source's position, labelled with its id, and their outline is the contour of the modelled source at the given radius. Labels and colours go to the region of the same number. Writing the regions of a run leaves a file in its image directory. The columns q and pa mean what the documentation of the input catalog says. A converted survey table stands for the ellipses that were measured.", "quantifier": "for all catalogs, radii, axis ratios and position angles, all stamps, all survey tables and pixel scales", "why_tests_cant": "That two ellipses are the same set of points, for every axis ratio and angle, is not settled by comparing a few; the conventions of the tools cancel in round examples.", "anchors": ["forcepho/utils/ds9.py:cat_to_regions", "forcepho/utils/ds9.py:annotate_regions", "forcepho/postprocess.py:write_sourcereg", "forcepho/utils/catalog.py:rectify_jades", "forcepho/slow/gaussmodel.py:scale_matrix", "forcepho/slow/gaussmodel.py:rotation_matrix"]}
{"id": "C69", "title": "The half-light radius measured for a fitted group of sources holds half of its light", "statement": "For every step-th kept sample of a chain there is one radius, measured on the image of the selected sources at that sample. The image is the sum of the sources. Half of its light lies nearer to its centroid than the radius, up to the light of the next pixel outwards. The radius does not depend on the unit of flux, on the place of the stamp, or on the order in which equidistant pixels are visited. The band and the stamp are the caller's: the band asked for is rendered, and the stamp is as before afterwards.", "quantifier": "for all chains, steps, stamps, catalogs and images without negative pixels", "why_tests_cant": "Which half of the pixels is nearest depends on the sort, and a finite set of images cannot show that the interpolated radius separates the light for every image.", "anchors": ["forcepho/postprocess.py:combined_rhalf", "forcepho/postprocess.py:forcepho_slow_model"]}
{"id": "C70", "title": "A galaxy profile fitted with free Gaussian weights has a proper prior, and the fitted parameters predict the fitted model", "statement": "For every number of Gaussians the covariance put on neighbouring log weights is one: ones on the diagonal, symmetric and positive definite. The prediction computed from the sampled parameters is the mean the likelihood was computed with. The amplitudes times the weights are the light of the components, and separate components add up to the whole. Every option of the model can be used.", "quantifier": "for all numbers of Gaussians, scales, priors, radii, weights, pixels and sampled values", "why_tests_cant": "Positive definiteness for every size is not settled by factoring a few matrices; the default settings hide the parameters that are held fixed.", "anchors": ["forcepho/mixtures/sersic_mix_twod.py:sersic_prediction", "forcepho/mixtures/sersic_mix_twod.py:sersic_model", "forcepho/mixtures/sersic_mix_twod.py:get_kernel"]}
{"id": "C71", "title": "Mock images show the sources of their catalog", "statement": "For every scene and stamp, a mock image is the sum over the sources of the scene of each source at its place on the sky, with its flux, size, shape and orientation, as the fitted model has them. The first source is in the middle of the stamp and the others do not fall on one another. Noise levels have the wanted signal to noise. The PSF stored for the fit is the one the image was made with. Every image can be written, and read back pixel by pixel with its uncertainty, noise and catalog.", "quantifier": "for all catalogs, stamps, scales, dithers, lists of radii, bands, dispersions and noise arrays", "why_tests_cant": "Axis order, half-pixel origins, the sense of angles and numpy's broadcasting each look right on square images with one round source.", "anchors": ["demo/demo_utils.py:make_stamp", "demo/demo_utils.py:make_scene", "demo/demo_utils.py:galsim_model", "demo/demo_utils.py:make_psfstore", "demo/demo_utils.py:compute_noise_level", "demo/demo_utils.py:write_fits_to"]}
{"id": "C72", "title": "Corner plots show the density of the samples and the fractions asked for", "statement": "For all samples and weights, each bin of a marginal or joint histogram holds the weight of the samples that fall in it, and all of them together the weight within the span. The contour of a fraction is at the density at which the densest bins hold that fraction; contours of larger fractions enclose those of smaller ones, and there is one distinct contour for every fraction. The density is given at the centres of the bins, and the number of bins and the smoothing are those asked for, the same in marginal and joint panels. The drawing always ends. Panel (i, j) shows parameter j across and i up, is labelled so, and the true values are marked on it.", "quantifier": "for all samples, weights, spans, smoothings, fractions, peaks, numbers of parameters and filters", "why_tests_cant": "Bin edges, ties of densities and the loop that separates them depend on the samples; a picture of one posterior looks right whichever bins it was made with.", "anchors": ["forcepho/utils/corner.py:twodhist", "forcepho/utils/corner.py:marginal", "forcepho/utils/corner.py:corner", "forcepho/utils/corner.py:prettify_axes", "forcepho/utils/corner.py:show_extras", "forcepho/utils/corner.py:get_cmap", "forcepho/utils/corner.py:scatter"]}
{"id": "C73", "title": "Profiles, tables and pictures of fitted mixtures show what they say", "statement": "For every Sersic index and half-light radius the profile used as the target of a mixture is one at the half-light radius, positive and decreasing, its curve of enclosed light grows by the light of each ring from nothing to one, and the radius computed for a fraction encloses that fraction. The best fit is the one sample of greatest posterior. The curves of enclosed light of an image and its model are the light of the pixels nearer than each radius. The residual shown is the difference of model and image in percent of the brightest pixel. The ellipse drawn for a Gaussian is its one-sigma contour, in the coordinates of the picture. The density of a Gaussian has unit volume, and the columns of a table of amplitudes tell its dispersions apart.", "quantifier": "for all Sersic indices, radii, fractions, dispersions and correlations, all images, models, samples and numbers of radii", "why_tests_cant": "Enclosed light is an integral over every radius and an ellipse has infinitely many points; round Gaussians hide exchanged axes.", "anchors": ["forcepho/mixtures/sersic_mix_oned.py:sersic_profile", "forcepho/mixtures/sersic_mix_oned.py:rfrac_from_halfn", "forcepho/mixtures/sersic_mix_oned.py:plot_cfd", "forcepho/mixtures/sersic_mix_oned.py:amplitude_table", "forcepho/mixtures/sersic_mix_oned.py:normal", "forcepho/mixtures/utils_hmc.py:infer", "forcepho/mixtures/utils_hmc.py:ee_plot", "forcepho/mixtures/utils_hmc.py:display", "forcepho/mixtures/utils_hmc.py:draw_ellipses", "forcepho/mixtures/utils_em.py:draw_ellipses"]}
{"id": "C74", "title": "Demonstration runs combine, fit and summarise the images they name", "statement": "A mosaic pixel is the mean of the exposures' values with their weights, whatever their order and the scale of the weights, and has the sum of the weights; a pixel some exposures miss has the mean of the others, and the mosaic has the header of the exposures. A grid has every combination of its values once. Every fit of a grid is made to the image of its own parameters, over a region that holds the whole image. The catalog of a grid has one row for every run with the last samples of that run. Comparison figures show every run that is there, with its percentiles, or with its best sample. Twice the flux within the true half-light radius is the flux when the radius is right. The common span of several chains takes in that of each. A frame of a movie shows one sample.", "quantifier": "for all exposures, weights, grids, tags, chains, scales, sizes of images and drizzling kernels", "why_tests_cant": "A mosaic of exposures that all cover it, a grid of round numbers and a chain without warm up show none of the differences; the claims are about all of them.", "anchors": ["demo/demo_mosaic/mosaic_combine_dithers.py:drizzle_combine", "demo/demo_psf/psf_grid_fit.py:make_grid", "demo/demo_psf/psf_grid_fit.py:make_tag", "demo/demo_psf/psf_one_fit.py:fit_image", "demo/demo_psf/psf_grid_plot.py:make_catalog", "demo/demo_psf/psf_grid_plot.py:get_map", "demo/demo_psf/psf_grid_plot.py:compare_parameters", "demo/demo_psf/psf_grid_plot.py:aperture_flux", "demo/demo_mosaic/mosaic_plot.py:multispan", "forcepho/fitting.py:show_chain"]}
{"id": "C75", "title": "Pictures, tables and logs of a patch show what they say", "statement": "The three panels of an exposure have one scale that holds every value shown; at every pixel the data are the sum of model and residual, and only masked pixels have no residual. On the axes of a panel each value is at the coordinates of its pixel, so that marks of sources fall on them. A call that draws marks draws them in the colours it was given or the documented ones. A report of a chain has a page for every source, with every band and shape parameter once, the samples and the value of that source, and the warm up shaded. The table of sampler statistics has every statistic of every iteration; a log has its messages in order. The sources within a circle are those whose circle overlaps it. Sampling with a general package gives the draws of parameter j in column j, within the bounds given.", "quantifier": "for all pixels, residuals, masks, sequences of calls, bands, chains, messages, catalogs, circles and bounds", "why_tests_cant": "Pictures are looked at, not tested; masks, one band, sources in two patches and default arguments are the cases that fail, and a default that is changed by a call shows only in the next.", "anchors": ["forcepho/postprocess.py:show", "forcepho/postprocess.py:mark_sources", "forcepho/postprocess.py:show_exp", "forcepho/postprocess.py:chain_pdf", "forcepho/postprocess.py:check_multipatch", "forcepho/utils/chain.py:make_statscat", "forcepho/superscene.py:overlap_circle", "forcepho/fitting.py:run_pymc3"]}
{"id": "C76", "title": "Scene coordinates measure separations on the sky", "statement": "The scene's coordinates are arcseconds about the medians of right ascension and declination of its sources, half of which are on either side. The distance of two places in these coordinates is their separation on the sky, to a part in the square of the field's angular radius, so that a search around a place with some radius finds the sources within that radius and no others; wherever on the sky the catalog lies, and for sources as they are in the current catalog.", "quantifier": "for all catalogs, places, radii, fields up to half a radian, and histories of searches and written back positions", "why_tests_cant": "A test catalog far from right ascension zero whose sources stay in place shows no difference, and distances agree with a test's tolerance at one place; the claims are about every catalog and history.", "anchors": ["forcepho/superscene.py:sky_to_scene", "forcepho/superscene.py:scene_frame", "forcepho/superscene.py:scene_coordinates", "forcepho/superscene.py:ingest", "forcepho/superscene.py:checkin_region", "forcepho/superscene.py:overlap_circle"]}
{"id": "C77", "title": "Single precision costs no more than reference coordinates are meant to allow", "statement": "Pixels, metadata and proposals reach the kernel in single precision. With coordinates relative to the patch's reference, a source that has not moved is exactly at the pixel it was packed at, and one that has moved is where its local matrix puts it to within a small part of a pixel, without ever moving backwards; two different proposals are told apart. What a pixel adds to chi-square, and the chi-square of the patch, agree with the exact difference of squares to a stated number of parts in 2^24 of the signal to noise squared, pixels that are masked or out of reach adding exactly nothing; derivatives are sums over the pixels whatever their number and order.", "quantifier": "for all data, errors, sources, Gaussians, matrices, reference coordinates and numbers of pixels", "why_tests_cant": "Tests compare with a tolerance at a few places; a bound that holds for all inputs, and the sizes at which single precision stops adding, are not reached by examples.", "anchors": ["forcepho/patches/patch.py:_pack_astrometry", "forcepho/patches/patch.py:zerocoords", "forcepho/src/compute_gaussians_kernel.cc:ConvolveOneSource", "forcepho/src/compute_gaussians_kernel.cc:EvaluateProposal", "forcepho/src/common_kernel.cc:ComputeResidualImage", "forcepho/src/matrix22.cc:Av", "forcepho/proposal.py:source_struct_dtype"]}
{"id": "C78", "title": "The counts of a source in a pixel are its light on that pixel", "statement": "What the kernel subtracts from a pixel is the light of the convolved Gaussians integrated over that pixel, to within a bound set by the square of how narrow they are (a 45th of the height for one pixel squared), with nothing more than e^-18 of the height lost beyond the cutoff; so is the residual image of every patch, and the counts of a block of pixels are the light on the block. All the light of a Gaussian over the plane is the source's flux times its mixture amplitude, its PSF amplitude and the gain, whatever the shapes. A source of positive flux takes light from no pixel.", "quantifier": "for all sources, covariances, PSF components, pixels, blocks of pixels, patches and data", "why_tests_cant": "An integral over a pixel, or over the plane, of every Gaussian is not computed by a test; rendering at a few wide Gaussians shows none of the error, and the sign changes only for narrow ones.", "anchors": ["forcepho/src/common_kernel.cc:ComputeResidualImage", "forcepho/src/common_kernel.cc:GetGaussianAndJacobian", "forcepho/src/compute_gaussians_kernel.cc:CreateImageGaussians", "forcepho/src/compute_gaussians_kernel.cc:EvaluateProposal"]}
{"id": "C79", "title": "The Gaussians of the kernel are the source's profile on the sky, taken to the pixels and convolved with the PSF", "statement": "Each component of a source is an elliptical Gaussian on the sky, of unit flux, given by its axis ratio, position angle and radius. For every source, exposure and PSF component the light density the kernel works with at any place of the image is the convolution integral: the profile over the whole sky, carried to the pixels by the local scale matrix and spread by the PSF component, times gain, flux and mixture amplitude. A point source has the shape of the PSF. The image of a patch is the sum of these over its sources and PSF components, about centres given by the astrometry.", "quantifier": "for all shapes, angles, radii, local scale matrices, PSF components, places, sources and patches", "why_tests_cant": "A convolution over the plane is an integral for every pair of shapes; a test compares a few rendered images with a numerical convolution to some tolerance.", "anchors": ["forcepho/src/common_kernel.cc:GetGaussianAndJacobian", "forcepho/src/compute_gaussians_kernel.cc:ConvolveOneSource", "forcepho/src/compute_gaussians_kernel.cc:CreateImageGaussians"]}
{"id": "C80", "title": "The likelihood is best at the truth, blind to the way a galaxy is described and to the units of flux", "statement": "Images made from a catalog by the kernel itself, without noise, are fitted best by that catalog: no other sources have a smaller chi-square, those that have the same make the same image in every pixel of non-zero weight, and the gradient is zero there. Two axis ratios and position angles stand for the same ellipse exactly when they differ by half turns and the sign of the ratio, by a quarter turn with the ratio inverted, or are both round; such descriptions leave the same residuals, the same chi-square and the same gradient, that of the axis ratio following the change of the ratio. Data, errors and fluxes in other units leave chi-square as it was, and change the gradient only in the units of the parameter.", "quantifier": "for all patches, bands, numbers of exposures, pixels and sources, sources and noise-free data, shapes, angles and units", "why_tests_cant": "Tests fit a few mock scenes and look at the result; that no catalog whatever does better, or exactly which parameters cannot be told apart, is a statement about all of them.", "anchors": ["forcepho/src/compute_gaussians_kernel.cc:EvaluateProposal", "forcepho/src/compute_gaussians_kernel.cc:ConvolveOneSource", "forcepho/src/common_kernel.cc:ComputeResidualImage", "forcepho/src/common_kernel.cc:ComputeGaussianDerivative", "forcepho/src/common_kernel.cc:GetGaussianAndJacobian"]}
{"id": "C81", "title": "The fit does not depend on the order of the sources, on how they are split, or on the axes of the sky", "statement": "Listing the sources of a patch in any order leaves residuals and chi-square as they are and only reorders the gradient. A galaxy entered as several, alike but for sharing its flux, makes the same image and chi-square, so the data cannot tell them apart: the flux gradient of each part is that of the whole, and the rest is shared in proportion to the flux. Turning the axes of the sky by any angle, with positions, position angles and astrometry to match, leaves residuals, chi-square and gradient as they are, the gradient of the position turned with the axes.", "quantifier": "for all patches, bands, exposures, numbers of sources up to the limit, permutations, splittings, angles and reference points", "why_tests_cant": "All orders, all ways of sharing a flux and all angles, for every patch: tests try one order and one orientation.", "anchors": ["forcepho/src/compute_gaussians_kernel.cc:EvaluateProposal", "forcepho/src/compute_gaussians_kernel.cc:ConvolveOneSource", "forcepho/src/compute_gaussians_kernel.cc:CreateImageGaussians", "forcepho/src/common_kernel.cc:GetGaussianAndJacobian", "forcepho/src/common_kernel.cc:ComputeGaussianDerivative"]}
{"id": "C82", "title": "A run comes to its end", "statement": "The parent loop goes on until every source has the wanted number of iterations. It gets there: whatever the order in which the children answer, passes whose seeds still want iterations never fail, their number is bounded by twice the rounds of sampling still wanted plus the tasks that are out, and from every state of every run the end can be reached. No source is left out for ever.", "quantifier": "for all catalogs, configurations, numbers of children, answers, schedules and states of a run", "why_tests_cant": "Termination is about runs of any length under any schedule; a test sees one run end, or gives up waiting.", "anchors": ["forcepho/dispatcher.py:do_parent", "forcepho/superscene.py:undone", "forcepho/superscene.py:get_circular_scene", "forcepho/superscene.py:checkout_region", "forcepho/superscene.py:exp_weight"]}
{"id": "C83", "title": "A postage stamp is the piece of the image it was asked for", "statement": "Asking for a postage stamp of a given size around a centre, in pixels or on the sky, gives a stamp of that size with the pixels of the image around that centre, in the axes of the image's header, also near the edges; pixels that are not a number or without uncertainty have no weight, every weight is finite, and the reference pixel of the stamp is the same place as in the image.", "quantifier": "for all images, uncertainties, astrometric matrices, centres and sizes", "why_tests_cant": "Edges, truncated ends and the order of axes matter only for some centres and images; tests use square images and centres in the middle.", "anchors": ["forcepho/slow/stamp.py:extract_stamp"]}
{"id": "C84", "title": "With places and shapes held, the fluxes have one well: a parabola known from value and gradient", "statement": "Change only the fluxes of a scene and the reported chi-square changes by exactly the sum of flux changes times the reported flux gradient, plus the squared difference of the two residual images in units of the errors. So the fluxes are the best possible, among all values of either sign, exactly when the flux gradient is zero, and others that fit as well leave the same residuals in every pixel of non-zero weight; between two sets of fluxes chi-square lies below the chord by the difference of the images and the flux gradient changes along a straight line; value and gradient here and the value at one other set of fluxes give the best point on the line between them in one step, and it is the only one if the images differ. Without any flux the residual is the data and the reported chi-square is zero. A source more than six widths from every pixel of non-zero weight has a zero gradient in all its parameters and its flux changes nothing.", "quantifier": "for all patches, bands, exposures, pixels, numbers of sources up to the limit, sources and fluxes of either sign", "why_tests_cant": "That no fluxes whatever do better, and that value, gradient and residuals agree exactly, is about all pairs of flux vectors; tests compare a finite difference at a few.", "anchors": ["forcepho/src/compute_gaussians_kernel.cc:EvaluateProposal", "forcepho/src/compute_gaussians_kernel.cc:ConvolveOneSource", "forcepho/src/common_kernel.cc:ComputeResidualImage", "forcepho/src/common_kernel.cc:ComputeGaussianDerivative", "forcepho/src/common_kernel.cc:GetGaussianAndJacobian"]}
