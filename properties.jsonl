{"id": "C01", "title": "Bounds intersection is exact set intersection", "statement": "For two bounds of the same kind, a position is included in `b1 & b2` exactly when it is included in both; `&` is commutative, associative and idempotent up to ==, and is undefined exactly when one operand is undefined or the rectangles share no point.", "quantifier": "all pairs/triples of bounds (defined or undefined), all integer positions", "why_tests_cant": "infinitely many rectangles; off-by-one in any of the four edges only shows for particular relative placements", "anchors": ["jax_galsim/bounds.py:Bounds.__and__", "jax_galsim/bounds.py:Bounds.includes"]}
{"id": "C02", "title": "Bounds union is the smallest enclosing bounds", "statement": "`b1 + b2` (and `b + position`) includes every point of both operands and is included in every bounds that does; undefined bounds are neutral; the result does not depend on the order in which positions are accumulated.", "quantifier": "all bounds, all lists of positions", "why_tests_cant": "a hull is a least upper bound: quantifies over all competitors", "anchors": ["jax_galsim/bounds.py:Bounds.__add__"]}
{"id": "C03", "title": "Copying or converting a Bounds keeps its region", "statement": "`BoundsI(b)`, `BoundsD(b)` describe the same rectangle as `b` when b is defined, converting I->D->I gives back an equal bounds, and an undefined bounds converts to an undefined bounds.", "quantifier": "all bounds of both kinds", "why_tests_cant": "needs every class pairing and every definedness state", "anchors": ["jax_galsim/bounds.py:Bounds._parse_args"]}
{"id": "C04", "title": "Equal bounds have equal hashes", "statement": "If `b1 == b2` then `hash(b1) == hash(b2)`, as required for use in dicts, sets and as jit static arguments.", "quantifier": "all pairs of bounds", "why_tests_cant": "a relation over all pairs of constructible values", "anchors": ["jax_galsim/bounds.py:Bounds.__eq__", "jax_galsim/bounds.py:Bounds.__hash__"]}
{"id": "C05", "title": "Bounds survive a pytree round trip", "statement": "Flattening a bounds to its pytree leaves/aux data and rebuilding it yields a bounds equal to the original with the same definedness and the same included points.", "quantifier": "all bounds, static or not, defined or not", "why_tests_cant": "jit/vmap/grad perform this round trip on every call for every value", "anchors": ["jax_galsim/bounds.py:Bounds.tree_flatten", "jax_galsim/bounds.py:BoundsI.tree_flatten", "jax_galsim/bounds.py:BoundsI.tree_unflatten"]}
{"id": "C06", "title": "Bounds measures agree with the set of included points", "statement": "For a defined BoundsI, area() is the number of included integer points, numpyShape() is (rows, columns), center is an included pixel nearest to true_center, withBorder(d) includes exactly the points at distance <= d (per axis), shift moves the set of included points, and origin is the least corner.", "quantifier": "all defined integer bounds, all borders and shifts", "why_tests_cant": "even/odd and negative coordinates behave differently under floor division", "anchors": ["jax_galsim/bounds.py:Bounds.area", "jax_galsim/bounds.py:Bounds.withBorder", "jax_galsim/bounds.py:Bounds.shift", "jax_galsim/bounds.py:BoundsI._center", "jax_galsim/bounds.py:BoundsI.numpyShape"]}
{"id": "C07", "title": "Image behaves as a map from pixel positions to values", "statement": "Under any sequence of setValue, addValue, setSubImage, fill, setZero, +=, shift and invertSelf operations, getValue(x,y) inside the bounds returns what the last writes to that pixel imply, all other pixels are unaffected, and an operation that raises leaves the image as it was.", "quantifier": "all images with static bounds, all finite sequences of operations", "why_tests_cant": "histories are unbounded; a wrong origin offset only shows for particular bounds", "anchors": ["jax_galsim/image.py:Image.setValue", "jax_galsim/image.py:Image.getValue", "jax_galsim/image.py:Image.addValue", "jax_galsim/image.py:Image.fill", "jax_galsim/image.py:Image.setSubImage"]}
{"id": "C08", "title": "Sub-images expose exactly the requested pixels", "statement": "im.subImage(b)/im[b] returns an image with bounds b whose pixel (x,y) equals the parent's pixel (x,y); writing it back with setSubImage/copyFrom is the identity on the parent; bounds not contained in the image raise.", "quantifier": "all images, all sub-bounds", "why_tests_cant": "all relative placements of two rectangles", "anchors": ["jax_galsim/image.py:Image.subImage", "jax_galsim/image.py:Image.setSubImage", "jax_galsim/image.py:Image.copyFrom"]}
{"id": "C09", "title": "A const image is never modified", "statement": "Once an image is created with make_const=True (or by view(make_const=True)), no public method or in-place operator changes its pixel values; modifying operations raise GalSimImmutableError.", "quantifier": "all const images, all sequences of public operations", "why_tests_cant": "needs every public mutator in every order", "anchors": ["jax_galsim/image.py:Image.setValue", "jax_galsim/image.py:Image.__iadd__", "jax_galsim/image.py:Image.array", "jax_galsim/image.py:Image.wrap"]}
{"id": "C10", "title": "Re-origining an image preserves pixels and world coordinates", "statement": "After shift/setCenter/setOrigin the pixel array is unchanged, the pixel formerly at (x,y) is at the shifted position, and the image's wcs maps the new position of a pixel to the same world position as before; two shifts compose additively and setOrigin/setCenter put the origin/center where asked.", "quantifier": "all images with affine wcs, all sequences of shifts", "why_tests_cant": "composition over unbounded sequences of shifts", "anchors": ["jax_galsim/image.py:Image.shift", "jax_galsim/image.py:Image.setCenter", "jax_galsim/image.py:Image.setOrigin", "jax_galsim/wcs.py:UniformWCS"]}
{"id": "C100", "title": "Flux of an InterpolatedImage", "statement": "The flux is the requested one, or the sum of the pixels (times the pixel area for normalization='sb'); kValue(0,0) equals it; positive flux minus negative flux is the flux and both are non-negative.", "quantifier": "all images, wcs, normalizations, interpolants with unit transform at 0", "why_tests_cant": "continuous input space", "anchors": ["jax_galsim/interpolatedimage.py:_InterpolatedImageImpl._flux", "jax_galsim/interpolatedimage.py:_InterpolatedImageImpl._flux_ratio", "jax_galsim/interpolatedimage.py:_InterpolatedImageImpl._pos_neg_fluxes"]}
{"id": "C101", "title": "Padding keeps the image", "statement": "The padded image has the pixels of the image around its centre and zeros elsewhere, so the flux is unchanged, and its size is the smallest good transform size not below pad_factor times the larger side.", "quantifier": "all images, pad factors, with and without recentring", "why_tests_cant": "all shapes and origins", "anchors": ["jax_galsim/interpolatedimage.py:_InterpolatedImageImpl._xim", "jax_galsim/interpolatedimage.py:_zeropad_image"]}
{"id": "C102", "title": "InterpolatedImage in k space", "statement": "At the frequencies of the padded transform kValue is the flux ratio times the transform of the x interpolant times the Fourier sum of the pixels at their places in the sky; in between the k interpolant is applied to the plane of these sums, and beyond the range of the x interpolant the value is 0.", "quantifier": "all images, wcs, offsets, interpolants, frequencies", "why_tests_cant": "continuous input space", "anchors": ["jax_galsim/interpolatedimage.py:_InterpolatedImageImpl._kValue", "jax_galsim/interpolatedimage.py:_kValue_arr"]}
{"id": "C103", "title": "maxk of an InterpolatedImage", "statement": "maxk is a positive multiple of the frequency step beyond which five successive square rings hold no amplitude above maxk_threshold times the flux (or the limit of the interpolant if that is lower).", "quantifier": "all images and thresholds", "why_tests_cant": "exists/forall over rings of any size", "anchors": ["jax_galsim/interpolatedimage.py:_find_maxk", "jax_galsim/interpolatedimage.py:_inner_comp_find_maxk_scan"]}
{"id": "C104", "title": "stepk and maxk through the wcs", "statement": "The image of the disc of radius pi/stepk of the pixel-space profile lies in the disc of radius pi/stepk of the InterpolatedImage, and frequencies within maxk of the pixel-space profile are within maxk of the InterpolatedImage, for any wcs.", "quantifier": "all wcs Jacobians", "why_tests_cant": "continuous input space, anisotropic wcs rarely tested", "anchors": ["jax_galsim/interpolatedimage.py:InterpolatedImage._maxk", "jax_galsim/interpolatedimage.py:InterpolatedImage._stepk"]}
{"id": "C105", "title": "Equal InterpolatedImages agree", "statement": "Two InterpolatedImages that compare equal have the same flux and the same xValue everywhere.", "quantifier": "all pairs of objects, all positions", "why_tests_cant": "quantifies over all pairs and all positions", "anchors": ["jax_galsim/interpolatedimage.py:InterpolatedImage.__eq__", "jax_galsim/interpolatedimage.py:InterpolatedImage.__hash__"]}
{"id": "C106", "title": "Centroid of an InterpolatedImage", "statement": "centroid is the flux-weighted mean of the sky positions at which xValue returns the pixel values.", "quantifier": "all images, wcs, offsets", "why_tests_cant": "continuous input space, offsets and even sizes", "anchors": ["jax_galsim/interpolatedimage.py:_InterpolatedImageImpl._centroid"]}
{"id": "C107", "title": "FITS headers of celestial systems round trip", "statement": "Writing a GSFitsWCS to a header and reading it back gives the same system: type, reference pixel, CD matrix, centre and distortion.", "quantifier": "all systems without distortion, with SIP and with TPV; all headers written over", "why_tests_cant": "all parameter values, orders and left-over keys", "anchors": ["jax_galsim/fitswcs.py:GSFitsWCS._writeHeader", "jax_galsim/fitswcs.py:GSFitsWCS._read_header"]}
{"id": "C108", "title": "The local Jacobian of a FITS WCS is the derivative of its sky map", "statement": "local() of a GSFitsWCS is the derivative, in arcsec with u towards the west, of the sky position with respect to the pixel position, distortions included.", "quantifier": "all systems, pixels and directions of motion", "why_tests_cant": "continuous input space; finite differences only approximate", "anchors": ["jax_galsim/fitswcs.py:GSFitsWCS._local"]}
{"id": "C109", "title": "Linear FITS headers mean what the standard says", "statement": "FitsWCS on a header with linear or no CTYPE returns a system that maps pixels by CRPIX, CRVAL and CD (or CDELT and PC), whichever class it chooses.", "quantifier": "all linear headers", "why_tests_cant": "all combinations of keys and values", "anchors": ["jax_galsim/fitswcs.py:FitsWCS", "jax_galsim/wcs.py:AffineTransform._readHeader"]}
{"id": "C11", "title": "Image transposes, flips and rotations", "statement": "transpose, flip_lr, flip_ud, rot_cw, rot_ccw, rot_180 permute pixels as the dihedral group of the rectangle (involutions, rot_cw.rot_ccw = id, rot_cw^2 = rot_180, transpose.flip relations), and the returned object is a fully usable Image (it can be compared, flattened and modified like the original).", "quantifier": "all images of all shapes", "why_tests_cant": "all shapes incl. non-square; the usable-object part is about every later operation", "anchors": ["jax_galsim/image.py:Image.transpose", "jax_galsim/image.py:Image.flip_lr", "jax_galsim/image.py:Image.rot_cw", "jax_galsim/image.py:_Image"]}
{"id": "C110", "title": "TNX surfaces are the Chebyshev and Legendre sums of the format", "statement": "The polynomial read from TNX keywords equals identity plus the surface defined by the format, for each surface type.", "quantifier": "all coefficients and ranges", "why_tests_cant": "continuous input space and all surface types", "anchors": ["jax_galsim/fitswcs.py:GSFitsWCS._parse_tnx_data", "jax_galsim/fitswcs.py:GSFitsWCS._read_tnx"]}
{"id": "C111", "title": "The order of the world axes does not matter", "statement": "A header with declination first and right ascension second is read as the same system as the header with the axes exchanged.", "quantifier": "all headers", "why_tests_cant": "all keys exchanged together", "anchors": ["jax_galsim/fitswcs.py:GSFitsWCS._read_header", "jax_galsim/fitswcs.py:GSFitsWCS._read_tpv"]}
{"id": "C112", "title": "SIP and TPV coefficients mean what the conventions say", "statement": "A position is corrected by the sum of A_i_j x^i y^j (SIP) and by the forty-term polynomial of PV1_k and PV2_k with the default values of the convention (TPV); terms that are not supported are refused.", "quantifier": "all headers, all orders, all positions", "why_tests_cant": "forty coefficients on two axes and a continuous input space", "anchors": ["jax_galsim/fitswcs.py:GSFitsWCS._read_sip", "jax_galsim/fitswcs.py:GSFitsWCS._read_tpv"]}
{"id": "C113", "title": "A profile contains its flux", "statement": "The integral of the surface brightness over the plane is the flux parameter (Gaussian, Exponential; Moffat: less the share cut off; Spergel: through its flux fractions), the amplitude at k = 0 is the flux and the value in the centre is the reported maximum.", "quantifier": "all sizes, fluxes of either sign, all thresholds", "why_tests_cant": "an improper integral for a continuum of parameters", "anchors": ["jax_galsim/gaussian.py:Gaussian._xValue", "jax_galsim/exponential.py:Exponential._xValue", "jax_galsim/moffat.py:Moffat._xValue", "jax_galsim/spergel.py:Spergel._xValue", "jax_galsim/box.py:Box._xValue"]}
{"id": "C114", "title": "kValue is the Fourier transform of xValue", "statement": "For every wave vector the amplitude returned by kValue is the Fourier integral of the surface brightness returned by xValue.", "quantifier": "all profiles of the class and all wave vectors", "why_tests_cant": "two separately written formulas related by an improper integral at every point of the plane", "anchors": ["jax_galsim/box.py:Box._kValue", "jax_galsim/gaussian.py:Gaussian._kValue", "jax_galsim/exponential.py:Exponential._kValue", "jax_galsim/deltafunction.py:DeltaFunction._kValue"]}
{"id": "C115", "title": "Photon positions follow the surface brightness", "statement": "The radius shot for a uniform deviate u is within r exactly when at least the share u of the flux is within r; boxes are filled uniformly; the angle does not change the radius.", "quantifier": "all deviates, radii and parameters; all table sizes", "why_tests_cant": "a law about a distribution; samples only suggest it", "anchors": ["jax_galsim/moffat.py:Moffat._shoot", "jax_galsim/exponential.py:Exponential._shoot", "jax_galsim/spergel.py:Spergel._shoot", "jax_galsim/box.py:Box._shoot"]}
{"id": "C116", "title": "A Spergel profile with nu = 1/2 is an Exponential", "statement": "With equal scale radius and flux the two classes return the same surface brightness, amplitudes and half-light radius.", "quantifier": "all sizes, fluxes and positions", "why_tests_cant": "two implementations compared on the whole plane", "anchors": ["jax_galsim/spergel.py", "jax_galsim/exponential.py"]}
{"id": "C117", "title": "int1d returns the integral that was asked for, or raises", "statement": "Whenever the underlying integrator keeps its tolerances on success, int1d returns the integral between the given limits within the tolerances (their sum over the two halves of the line), and a failure of either half is raised.", "quantifier": "all integrands, all finite and infinite limits, all integrators that keep their promise", "why_tests_cant": "a claim about every integrand and limit; tests look at a few convergent integrals", "anchors": ["jax_galsim/integ.py:int1d"]}
{"id": "C118", "title": "Clenshaw-Curtis quadrature is exact for polynomials up to degree 2 order + 1 and its error is bounded by the best approximation", "statement": "For every order the weights computed by a Fourier transform are positive and integrate polynomials of degree at most 2 order + 1 exactly over any interval; for other functions the error is at most twice the distance to such polynomials times the length; the error weights give the difference to the rule of half the order.", "quantifier": "all orders, intervals, polynomials and integrable functions", "why_tests_cant": "the order is unbounded and the weights come out of a transform; a test checks a few orders and functions", "anchors": ["jax_galsim/core/integrate.py:abs_weights", "jax_galsim/core/integrate.py:ClenshawCurtisQuad", "jax_galsim/core/integrate.py:quad_integral"]}
{"id": "C119", "title": "kv is the modified Bessel function of the second kind, and its gradient is its derivative", "statement": "kv(nu, x) is K_nu(x): for half-integer orders the closed form, even in the order, infinite at 0, nan below, obeying the three-term recurrence between orders; the gradient reported for reverse-mode differentiation is the derivative.", "quantifier": "all orders and arguments (closed forms for half-integer orders)", "why_tests_cant": "a claim about a continuum of orders and arguments in several branches with iterations; tests compare a grid of points", "anchors": ["jax_galsim/bessel.py:_temme_series_kve", "jax_galsim/bessel.py:_continued_fraction_kve", "jax_galsim/bessel.py:_temme_kve", "jax_galsim/bessel.py:_kv_scalar", "jax_galsim/bessel.py:_kv_bwd"]}
{"id": "C12", "title": "A rejected wrap leaves the image unchanged", "statement": "Image.wrap either succeeds or raises without changing the image's pixels.", "quantifier": "all images and all requested wrap bounds", "why_tests_cant": "failure atomicity over all invalid inputs", "anchors": ["jax_galsim/image.py:Image.wrap", "jax_galsim/image.py:Image._wrap"]}
{"id": "C120", "title": "si is the sine integral within 1e-14 everywhere", "statement": "For every real x the rational approximations of si differ from the integral of sin t / t from 0 to x by at most 1e-14, and by at most 1e-16 |x| for |x| <= 4; si is odd.", "quantifier": "all real arguments", "why_tests_cant": "an error bound over the whole real line; tests sample finitely many points", "anchors": ["jax_galsim/bessel.py:si", "jax_galsim/bessel.py:_f_pade", "jax_galsim/bessel.py:_g_pade", "jax_galsim/bessel.py:_si_small_pade"]}
{"id": "C121", "title": "j0 is the Bessel function of order zero within 2e-16", "statement": "j0 differs from the sum of the power series of J0 by at most 2e-16, is even and 1 at 0.", "quantifier": "all real arguments", "why_tests_cant": "an error bound over intervals of reals; tests sample finitely many points", "anchors": ["jax_galsim/bessel.py:j0"]}
{"id": "C122", "title": "Celestial systems: units, positions, origins", "statement": "xyToradec gives the coordinates of posToWorld in the units asked for, radecToxy is posToImage of the coordinates meant, the two undo each other in any units wherever _xy undoes _radec, other units are refused; shiftOrigin moves positions, local Jacobian and sky image together and refuses a world origin.", "quantifier": "all classes of celestial systems (given origin, _radec, _xy, _newOrigin), positions, units, origins, pixels", "why_tests_cant": "tests try a few units and positions on a few headers", "anchors": ["jax_galsim/wcs.py:CelestialWCS.xyToradec", "jax_galsim/wcs.py:CelestialWCS.radecToxy", "jax_galsim/wcs.py:CelestialWCS._shiftOrigin", "jax_galsim/wcs.py:CelestialWCS._posToWorld", "jax_galsim/fitswcs.py:GSFitsWCS._newOrigin"]}
{"id": "C123", "title": "Sky images of celestial systems", "statement": "Each pixel of makeSkyImage is the sky level times the solid angle of the pixel in square arcseconds, up to a third-order error in the pixel size, also where the right ascension jumps by a full turn; it agrees with the area of local; the same at the poles; integer images hold the nearest integer.", "quantifier": "all celestial systems with three times differentiable coordinates, pixels, sky levels", "why_tests_cant": "accuracy of finite differences against the true solid angle for every coordinate system; jumps and poles are rare pixels", "anchors": ["jax_galsim/wcs.py:CelestialWCS._makeSkyImage", "jax_galsim/wcs.py:CelestialWCS._local", "jax_galsim/wcs.py:EuclideanWCS._makeSkyImage"]}
{"id": "C124", "title": "drawImage as an operation on the image", "statement": "A drawImage call that returns gives back the image it was given, at the place it had and with the wcs used, drawn on while centred at (0,0) with unit pixels, and added_flux is the flux of the profile that the counts stand for given gain, area, exptime and method. A call refused for its arguments leaves the image alone. A call that raises leaves the image where it was and with its wcs.", "quantifier": "all calls, images, wcs and drawing backends, including those that raise", "why_tests_cant": "the state of the image after every possible exception and argument combination; tests look at a few successful draws", "anchors": ["jax_galsim/gsobject.py:drawImage", "jax_galsim/gsobject.py:_determine_wcs", "jax_galsim/gsobject.py:_setup_image"]}
{"id": "C125", "title": "Which wcs is used", "statement": "The wcs used is the argument wcs, or PixelScale(scale), or that of the image, or the Nyquist scale, the latter also when the pixel scale is not positive; the call is refused exactly when both are given or wcs is not a wcs; drawing again on a drawn image uses the same wcs.", "quantifier": "all argument combinations, images and wcs", "why_tests_cant": "a decision table over unboundedly many values, closed under repetition", "anchors": ["jax_galsim/gsobject.py:_determine_wcs"]}
{"id": "C126", "title": "drawKImage as an operation on the image", "statement": "drawKImage returns the image given, with wcs PixelScale(dk), dk being the scale asked for or stepk, centred unless asked not to; an automatic image is symmetric about k=0 and reaches maxk but not beyond the next pixel; a call that raises leaves the image alone.", "quantifier": "all calls, images, profiles' maxk and stepk", "why_tests_cant": "coverage of maxk for every pair of maxk and stepk and scale; exceptional exits", "anchors": ["jax_galsim/gsobject.py:drawKImage", "jax_galsim/image.py:scale"]}
{"id": "C13", "title": "Images survive a pytree round trip", "statement": "Flattening an Image and rebuilding it gives back the same array, wcs, bounds, header, const flag, and the same photons/added_flux attributes.", "quantifier": "all images in all attribute states", "why_tests_cant": "every combination of optional attributes", "anchors": ["jax_galsim/image.py:Image.tree_flatten", "jax_galsim/image.py:Image.tree_unflatten"]}
{"id": "C14", "title": "Image wrapping sums all congruent pixels", "statement": "After im.wrap(bounds) every pixel of the target region holds the sum of all pixels of the original image whose coordinates are congruent to it modulo the region's width and height, so the total flux of the returned image equals that of the original.", "quantifier": "all image sizes, all target regions inside it", "why_tests_cant": "the result depends on residues and partial blocks on all four sides for arbitrary sizes", "anchors": ["jax_galsim/core/wrap_image.py:wrap_nonhermitian", "jax_galsim/image.py:Image.wrap"]}
{"id": "C15", "title": "Hermitian wrapping agrees with wrapping the full plane", "statement": "Wrapping a half-plane image with hermitian='x' or 'y' gives the same values as extending it by conjugate symmetry to the full plane, wrapping, and keeping the half plane.", "quantifier": "all Hermitian half-plane images and all target sizes", "why_tests_cant": "all sizes and all complex values", "anchors": ["jax_galsim/core/wrap_image.py:wrap_hermitian_x", "jax_galsim/core/wrap_image.py:wrap_hermitian_y"]}
{"id": "C16", "title": "The two block-summation strategies agree", "statement": "The loop-based and the index-based block reduction used by wrapping give the same result, so the size threshold that selects one is unobservable.", "quantifier": "all arrays and block sizes", "why_tests_cant": "the switch happens at one size; equality is over all arrays", "anchors": ["jax_galsim/core/wrap_image.py:_block_reduce_loop", "jax_galsim/core/wrap_image.py:_block_reduce_index"]}
{"id": "C17", "title": "good_fft_size returns the smallest suitable size", "statement": "Image.good_fft_size(n) is even, of the form 2^k or 3*2^k, is >= n, and no smaller number of that form is.", "quantifier": "all n >= 1", "why_tests_cant": "unbounded n; rounding safety margins bite only for large n", "anchors": ["jax_galsim/image.py:Image.good_fft_size"]}
{"id": "C18", "title": "FFT drawing geometry covers the image", "statement": "For every profile bandwidth/step and image size accepted by drawFFT, the FFT grid is even-sized, at least as large as the image, the k-image is a symmetric half-plane around k_y=0, the final real-space region contains the requested image bounds, and sizes above the maximum raise instead of drawing.", "quantifier": "all maxk, stepk, image sizes, gsparams limits", "why_tests_cant": "size logic branches on real-number ratios for all parameters", "anchors": ["jax_galsim/gsobject.py:GSObject.drawFFT_makeKImage", "jax_galsim/gsobject.py:GSObject.drawFFT_finish", "jax_galsim/gsobject.py:GSObject.getGoodImageSize"]}
{"id": "C19", "title": "Automatically chosen image bounds", "statement": "drawImage's choice of bounds/dtype/array from image, nx, ny, bounds, dtype and add_to_image either raises a documented incompatibility error or produces defined bounds of the requested size; an existing image's bounds are kept.", "quantifier": "all combinations of arguments", "why_tests_cant": "combinatorial argument space", "anchors": ["jax_galsim/gsobject.py:GSObject._setup_image", "jax_galsim/gsobject.py:GSObject._get_new_bounds"]}
{"id": "C20", "title": "drawImage puts the profile where asked", "statement": "Whatever the combination of image size, center, offset and use_true_center, the drawn profile's origin lands at (center if given, else the image true center or nominal center) + offset in pixel coordinates.", "quantifier": "all bounds, offsets and centers", "why_tests_cant": "even/odd sizes and three ways to give the position combine for all sizes", "anchors": ["jax_galsim/gsobject.py:GSObject._adjust_offset", "jax_galsim/gsobject.py:GSObject._setup_image"]}
{"id": "C21", "title": "Real-space drawing keeps image type and is order independent", "statement": "Drawing a Sum in real space on an integer image gives the rounded sum of the components' values irrespective of component order, and keeps the image's dtype.", "quantifier": "all component lists and pixel values", "why_tests_cant": "rounding differences appear only for particular values", "anchors": ["jax_galsim/sum.py:Sum._drawReal", "jax_galsim/gsobject.py:GSObject.drawReal", "jax_galsim/core/draw.py:draw_by_xValue"]}
{"id": "C22", "title": "Photon drawing loop shoots every photon once", "statement": "drawPhot terminates after ceil(N/maxN) rounds, each round shoots between 1 and maxN photons, the rounds' counts add up to N, and the total drawn flux equals the profile flux times the gain scaling regardless of maxN.", "quantifier": "all N, maxN and gains", "why_tests_cant": "loop over unbounded N and all chunkings", "anchors": ["jax_galsim/gsobject.py:GSObject.drawPhot"]}
{"id": "C23", "title": "Fixed-size photon arrays carry the full flux", "statement": "Shooting with a fixed photon-array size S (the jit-friendly mode) gives the same total flux as without it, for every number of photons N <= S.", "quantifier": "all N <= S and fluxes", "why_tests_cant": "all N,S pairs; tests only use N = S", "anchors": ["jax_galsim/photon_array.py:fixed_photon_array_size", "jax_galsim/photon_array.py:PhotonArray", "jax_galsim/gsobject.py:GSObject.makePhot", "jax_galsim/gaussian.py:Gaussian._shoot"]}
{"id": "C24", "title": "Photon array masked bookkeeping", "statement": "Under any sequence of flux assignment, scaleFlux, scaleXY, setTotalFlux, and changes of the number of kept photons, the visible flux of dropped photons is 0, reading flux back after assigning it returns the assigned values, getTotalFlux is the sum of visible fluxes, and scaling scales exactly.", "quantifier": "all photon arrays, all operation sequences", "why_tests_cant": "unbounded histories on masked arrays", "anchors": ["jax_galsim/photon_array.py:PhotonArray.flux", "jax_galsim/photon_array.py:PhotonArray._num_keep", "jax_galsim/photon_array.py:PhotonArray.scaleFlux", "jax_galsim/photon_array.py:PhotonArray.setTotalFlux"]}
{"id": "C25", "title": "Binning photons conserves flux", "statement": "PhotonArray.addTo(image) adds each photon's flux to the pixel whose unit square contains it, ignores photons outside the image, changes no other pixel, and returns exactly the flux added; the result is independent of photon order.", "quantifier": "all photon lists and images", "why_tests_cant": "all photon positions incl. edges, any number of photons", "anchors": ["jax_galsim/photon_array.py:PhotonArray.addTo"]}
{"id": "C26", "title": "Photon convolution", "statement": "Convolving photon arrays adds positions, multiplies fluxes so the total flux is the product when fluxes are uniform, is commutative in distribution (position/flux wise) and rejects different sizes.", "quantifier": "all pairs of photon arrays", "why_tests_cant": "all sizes and flux values", "anchors": ["jax_galsim/photon_array.py:PhotonArray.convolve"]}
{"id": "C27", "title": "Making photons from an image conserves flux", "statement": "PhotonArray.makeFromImage produces photons whose total flux equals the image's sum, pixel by pixel, with each photon's |flux| <= max_flux and located in its pixel.", "quantifier": "all images and max_flux > 0", "why_tests_cant": "all pixel values incl. zero/negative", "anchors": ["jax_galsim/photon_array.py:PhotonArray.makeFromImage"]}
{"id": "C28", "title": "Number of photons is a valid count", "statement": "The automatically computed number of photons is a non-negative integer for every flux, noise and max_extra_noise setting accepted, and with n_photons given it is used verbatim.", "quantifier": "all profiles/fluxes", "why_tests_cant": "negative or zero flux corner cases over all parameter combinations", "anchors": ["jax_galsim/core/draw.py:calculate_n_photons", "jax_galsim/core/draw.py:calculate_mean_n_photons", "jax_galsim/gsobject.py:GSObject._calculate_nphotons"]}
{"id": "C29", "title": "Photon arrays survive file and pytree round trips", "statement": "Writing a photon array to a FITS table and reading it back, or flattening and rebuilding it, gives photons with the same positions, visible fluxes and kept set.", "quantifier": "all photon arrays incl. those with dropped photons", "why_tests_cant": "all mask states", "anchors": ["jax_galsim/photon_array.py:PhotonArray.write", "jax_galsim/photon_array.py:PhotonArray.read", "jax_galsim/photon_array.py:PhotonArray.tree_flatten"]}
{"id": "C30", "title": "Bulk and sequential draws agree", "statement": "Filling an array of n values with generate gives the same values and leaves the generator in the same state as n successive calls; discard(n) leaves it in the same state as n calls; clearing/raw consume a fixed number of draws.", "quantifier": "all generator states, all n, all interleavings of calls", "why_tests_cant": "unbounded n and histories", "anchors": ["jax_galsim/random.py:BaseDeviate.generate", "jax_galsim/random.py:BaseDeviate.discard", "jax_galsim/random.py:BaseDeviate.raw"]}
{"id": "C31", "title": "Linked and duplicated generators", "statement": "A deviate built from (or reset to) another deviate shares its stream: draws from either advance both; duplicate() yields the same future values but afterwards neither affects the other; seed/reset re-create the same stream for the same seed.", "quantifier": "all programs of create/link/duplicate/draw/seed operations over any number of deviates", "why_tests_cant": "aliasing over unbounded operation histories", "anchors": ["jax_galsim/random.py:BaseDeviate.reset", "jax_galsim/random.py:BaseDeviate.duplicate", "jax_galsim/random.py:BaseDeviate.seed"]}
{"id": "C32", "title": "Generator state serialization", "statement": "reset(serialize()) restores a generator to the same future stream.", "quantifier": "all generator states", "why_tests_cant": "all states", "anchors": ["jax_galsim/random.py:BaseDeviate.serialize", "jax_galsim/random.py:BaseDeviate._reset"]}
{"id": "C33", "title": "Applying noise advances the random generator", "statement": "Every addNoise call on an image advances the generator that the user supplied, so that successive calls with a shared generator use fresh random numbers, and independent noise components use different draws.", "quantifier": "all noise models, states and images", "why_tests_cant": "a statement about all sequences of noise applications on shared generator state", "anchors": ["jax_galsim/noise.py:CCDNoise._applyTo", "jax_galsim/noise.py:GaussianNoise._applyTo", "jax_galsim/noise.py:PoissonNoise._applyTo"]}
{"id": "C34", "title": "permute applies one permutation to all lists", "statement": "permute(rng, a, b, ...) applies the same permutation to each list, keeps the multiset of elements of each, and advances the generator by a fixed amount.", "quantifier": "all list tuples of equal length", "why_tests_cant": "all lengths/lists", "anchors": ["jax_galsim/random.py:permute"]}
{"id": "C35", "title": "Noise variance bookkeeping", "statement": "For GaussianNoise, PoissonNoise, CCDNoise and VariableGaussianNoise, getVariance() after withVariance(v) is v and after withScaledVariance(r) (or *, /) is r times the old variance; unsupported requests raise.", "quantifier": "all parameter values incl. zero gain/zero variance", "why_tests_cant": "piecewise rational formulas over all parameters", "anchors": ["jax_galsim/noise.py:CCDNoise.getVariance", "jax_galsim/noise.py:CCDNoise.withVariance", "jax_galsim/noise.py:GaussianNoise.withVariance"]}
{"id": "C36", "title": "addNoiseSNR gives the requested signal-to-noise", "statement": "With preserve_flux=True the noise variance used, and with preserve_flux=False the flux scaling used, make sqrt(sum(image^2)/variance) of the resulting image equal the requested snr.", "quantifier": "all images with nonzero signal, all snr > 0", "why_tests_cant": "all images", "anchors": ["jax_galsim/noise.py:addNoiseSNR"]}
{"id": "C37", "title": "Noise models survive a pytree round trip", "statement": "Flattening and rebuilding any noise object yields an equal object of the same class.", "quantifier": "all noise objects", "why_tests_cant": "every class and state", "anchors": ["jax_galsim/noise.py:BaseNoise.tree_unflatten", "jax_galsim/noise.py:DeviateNoise"]}
{"id": "C38", "title": "Nested transformations compose", "statement": "Applying shear/dilate/magnify/rotate/shift/flux scaling repeatedly gives a profile whose surface brightness, Fourier amplitude, centroid and flux are those obtained by applying the maps one after the other, however they are nested.", "quantifier": "all profiles, all sequences of transformations", "why_tests_cant": "unbounded nesting; composition order errors cancel on symmetric test cases", "anchors": ["jax_galsim/transform.py:Transformation.__init__", "jax_galsim/transform.py:Transformation._xValue", "jax_galsim/transform.py:Transformation._kValue"]}
{"id": "C39", "title": "Real-space drawing agrees with point evaluation", "statement": "For every profile built from analytic leaves by transformation and summation, the value drawn in a pixel in real space equals the surface brightness xValue at the pixel's position times pixel area times flux scaling.", "quantifier": "all profile trees, all images, jacobians, offsets", "why_tests_cant": "structural recursion over unbounded trees", "anchors": ["jax_galsim/transform.py:Transformation._drawReal", "jax_galsim/sum.py:Sum._drawReal", "jax_galsim/core/draw.py:draw_by_xValue"]}
{"id": "C40", "title": "Fourier drawing agrees with point evaluation", "statement": "For every profile built from leaves by transformation, summation and convolution, the drawn k-image value at each k equals kValue there.", "quantifier": "all profile trees and k-images", "why_tests_cant": "structural recursion over unbounded trees", "anchors": ["jax_galsim/transform.py:Transformation._drawKImage", "jax_galsim/sum.py:Sum._drawKImage", "jax_galsim/convolve.py:Convolution._drawKImage", "jax_galsim/core/draw.py:draw_by_kValue"]}
{"id": "C41", "title": "Flux is consistent across views", "statement": "For every profile tree flux equals kValue(0), is additive under Sum, multiplicative under Convolve, scales by flux_ratio*|det J| under transformations, and withFlux(f).flux = f.", "quantifier": "all profile trees", "why_tests_cant": "unbounded trees", "anchors": ["jax_galsim/transform.py:Transformation._flux", "jax_galsim/sum.py:Sum._flux", "jax_galsim/convolve.py:Convolution._flux", "jax_galsim/gsobject.py:GSObject.withFlux"]}
{"id": "C42", "title": "Positive and negative flux decomposition", "statement": "positive_flux - negative_flux = flux and both are non-negative for every profile tree, including interpolated images.", "quantifier": "all profile trees with any flux signs", "why_tests_cant": "sign cases over unbounded trees", "anchors": ["jax_galsim/convolve.py:Convolution._calc_pn", "jax_galsim/transform.py:Transformation._positive_flux", "jax_galsim/sum.py:Sum._positive_flux"]}
{"id": "C43", "title": "Sum is order- and nesting-independent", "statement": "Add(a, Add(b, c)), Add(Add(a,b),c) and a permutation have the same flux, centroid, surface brightness, Fourier amplitudes and size parameters.", "quantifier": "all lists of profiles", "why_tests_cant": "all nestings and orders", "anchors": ["jax_galsim/sum.py:Sum.__init__", "jax_galsim/sum.py:Sum._maxk", "jax_galsim/sum.py:Sum._stepk", "jax_galsim/sum.py:Sum._centroid"]}
{"id": "C44", "title": "When Convolve refuses", "statement": "Convolve raises NotImplementedError exactly when real-space convolution is asked for (or chosen because at most two components all have hard edges), there are at most two components and all are analytic in real space; in every other case it makes a Fourier-space convolution; the decision does not depend on the order of the components; convolving and drawing with default arguments works.", "quantifier": "all component lists and flags", "why_tests_cant": "combinatorial", "anchors": ["jax_galsim/convolve.py:Convolution.__init__"]}
{"id": "C45", "title": "Deconvolution inverts convolution", "statement": "Within the band limit, kValue of Convolve(Deconvolve(p), q, p) equals that of q where p's amplitude exceeds the accuracy threshold, and drawing and point evaluation of a deconvolution agree.", "quantifier": "all profiles and k", "why_tests_cant": "boundary at exactly the threshold", "anchors": ["jax_galsim/convolve.py:Deconvolution._kValue", "jax_galsim/convolve.py:Deconvolution._drawKImage"]}
{"id": "C46", "title": "Combining GSParams gives the most restrictive settings", "statement": "GSParams.combine is idempotent, commutative, associative and its result is at least as restrictive as each input in every field; withParams changes only the named fields and rejects unknown ones.", "quantifier": "all parameter sets", "why_tests_cant": "lattice laws over all values", "anchors": ["jax_galsim/gsparams.py:GSParams.combine", "jax_galsim/gsparams.py:GSParams.withParams"]}
{"id": "C47", "title": "Profile size parameters are consistent", "statement": "Constructing a profile with one of its size parameters (sigma/fwhm/half_light_radius/scale_radius) and reading that parameter back returns it, exactly one size must be given, and the relations between them are those of the profile (half the flux inside the half-light radius, half the peak at fwhm/2).", "quantifier": "all positive sizes", "why_tests_cant": "all real parameters", "anchors": ["jax_galsim/gaussian.py", "jax_galsim/exponential.py", "jax_galsim/moffat.py"]}
{"id": "C48", "title": "Bandwidth estimates bound the Fourier tail", "statement": "At the reported maxk (and beyond) the profile's Fourier amplitude relative to its flux does not exceed the maxk threshold (Gaussian, Exponential, Spergel), and stepk leaves at most the folding threshold of flux outside radius pi/stepk.", "quantifier": "all profile parameters and thresholds", "why_tests_cant": "all thresholds and parameters", "anchors": ["jax_galsim/gaussian.py:Gaussian._maxk", "jax_galsim/exponential.py:Exponential._maxk", "jax_galsim/spergel.py:Spergel._maxk"]}
{"id": "C49", "title": "Shears form a group-like structure", "statement": "|g|<1 is preserved by addition; s + (-s) = 0; S(s1) S(s2) = S(s1+s2) R(rotationWith(s2)); the shear matrix is symmetric with determinant 1; zero shear is neutral.", "quantifier": "all shears with |g|<1", "why_tests_cant": "all pairs of complex numbers in the disc", "anchors": ["jax_galsim/shear.py:Shear.__add__", "jax_galsim/shear.py:Shear.getMatrix", "jax_galsim/shear.py:Shear.rotationWith"]}
{"id": "C50", "title": "Shear parametrizations agree to double precision", "statement": "Constructing a shear from (g1,g2), (e1,e2), (eta1,eta2), or from g, e, eta or q with a position angle, and reading back the same parametrization returns the input (exactly for g, and to one part in 10^16 where a series branch is involved); out-of-range and malformed calls raise.", "quantifier": "all valid parameter values", "why_tests_cant": "all reals in the domains incl. the small-value series branch", "anchors": ["jax_galsim/shear.py:Shear.__init__"]}
{"id": "C51", "title": "WCS image/world maps are mutually inverse", "statement": "For every PixelScale, Shear, Jacobian, Offset, OffsetShear and Affine WCS with nonzero determinant, toImage(toWorld(p)) = p and toWorld(toImage(w)) = w, and inverse() swaps them.", "quantifier": "all nondegenerate wcs parameters and positions", "why_tests_cant": "all real parameters", "anchors": ["jax_galsim/wcs.py:PixelScale", "jax_galsim/wcs.py:JacobianWCS", "jax_galsim/wcs.py:AffineTransform", "jax_galsim/wcs.py:ShearWCS"]}
{"id": "C52", "title": "WCS re-origining", "statement": "wcs.shiftOrigin/withOrigin satisfy: new.toWorld(p + origin) = old.toWorld(p) without a world origin, new.toWorld(origin) = world_origin with one; local part is unchanged; compositions add.", "quantifier": "all uniform wcs, all origins, all sequences", "why_tests_cant": "sequences of shifts", "anchors": ["jax_galsim/wcs.py:EuclideanWCS._shiftOrigin", "jax_galsim/wcs.py:BaseWCS.withOrigin"]}
{"id": "C53", "title": "Jacobian decomposition reconstructs the Jacobian", "statement": "getDecomposition returns (scale, shear, theta, flip) such that scale * shear matrix * rotation * optional flip equals the Jacobian; pixelArea = |det|; min/max linear scale are the singular values.", "quantifier": "all invertible jacobians", "why_tests_cant": "all 2x2 matrices", "anchors": ["jax_galsim/wcs.py:JacobianWCS.getDecomposition", "jax_galsim/wcs.py:JacobianWCS._minScale"]}
{"id": "C54", "title": "Profiles and shears transfer between image and world consistently", "statement": "profileToWorld and profileToImage are inverse and conserve flux; shearToWorld/Image are inverse and agree with transforming a sheared round profile.", "quantifier": "all jacobians and profiles", "why_tests_cant": "all reals", "anchors": ["jax_galsim/wcs.py:JacobianWCS._profileToWorld", "jax_galsim/wcs.py:JacobianWCS._shearToWorld"]}
{"id": "C55", "title": "Every local representation agrees", "statement": "toJacobian/toAffine of PixelScale/Shear/Offset... wcs and local() at any position give the same map as the original (finite-difference local is exact for affine maps).", "quantifier": "all wcs and positions", "why_tests_cant": "all reals", "anchors": ["jax_galsim/wcs.py:PixelScale._toJacobian", "jax_galsim/wcs.py:ShearWCS._toJacobian", "jax_galsim/wcs.py:EuclideanWCS._local"]}
{"id": "C56", "title": "WCS header round trip", "statement": "Writing any wcs class to a FITS header with writeToFitsHeader and reading it with readFromFitsHeader yields an equivalent wcs and the same image origin.", "quantifier": "all wcs objects and bounds", "why_tests_cant": "all classes and parameters", "anchors": ["jax_galsim/wcs.py:readFromFitsHeader", "jax_galsim/wcs.py:PixelScale._writeHeader", "jax_galsim/wcs.py:PixelScale._readHeader"]}
{"id": "C57", "title": "Tangent-plane projections invert", "statement": "For each projection (gnomonic, stereographic, lambert, postel) deproject(project(p)) is the same sky position and project(deproject(u,v)) = (u,v) wherever the projection is defined; deproject lands on the unit sphere.", "quantifier": "all centers, positions, projections", "why_tests_cant": "trigonometric identities over all angles", "anchors": ["jax_galsim/celestial.py:CelestialCoord._project", "jax_galsim/celestial.py:CelestialCoord._deproject"]}
{"id": "C58", "title": "Angular distance is a metric-compatible great-circle distance", "statement": "distanceTo equals the angle between the unit vectors, is symmetric, zero only for equal directions and the two internal formulas agree.", "quantifier": "all pairs of coordinates", "why_tests_cant": "branch switch near antipodes", "anchors": ["jax_galsim/celestial.py:CelestialCoord.distanceTo"]}
{"id": "C59", "title": "Coordinate system rotations are rigid", "statement": "galactic/ecliptic/precession conversions preserve angular distance, are inverse to their from_* counterparts, and unit-vector conversion round-trips up to 2 pi in ra.", "quantifier": "all coordinates/epochs", "why_tests_cant": "all angles", "anchors": ["jax_galsim/celestial.py:CelestialCoord.galactic", "jax_galsim/celestial.py:CelestialCoord.from_galactic", "jax_galsim/celestial.py:CelestialCoord.ecliptic", "jax_galsim/celestial.py:CelestialCoord.precess"]}
{"id": "C60", "title": "TanWCS honours the affine transform", "statement": "TanWCS(affine, world_origin) maps each image position to the deprojection about world_origin of affine.toWorld(position), for every affine including ones with a non-zero world origin.", "quantifier": "all affine transforms", "why_tests_cant": "all parameters, incl. ones tests leave at zero", "anchors": ["jax_galsim/fitswcs.py:TanWCS"]}
{"id": "C61", "title": "TPV distortion coefficients survive header round trip", "statement": "Writing a TPV WCS's distortion to a header and reading it back yields the same polynomial.", "quantifier": "all polynomial orders and sparsity patterns", "why_tests_cant": "sparsity patterns of coefficients", "anchors": ["jax_galsim/fitswcs.py:GSFitsWCS._read_tpv", "jax_galsim/fitswcs.py:GSFitsWCS._writeHeader"]}
{"id": "C62", "title": "FITS WCS origin shift and header", "statement": "shiftOrigin changes only where the pixel origin is: new.toWorld(p+o) = old.toWorld(p); reading CD, PC*CDELT, or CDELT headers gives the documented linear map; the distortion inversion returns a true preimage when it does not raise.", "quantifier": "all headers and positions", "why_tests_cant": "all matrix combinations and distortions", "anchors": ["jax_galsim/fitswcs.py:GSFitsWCS._newOrigin", "jax_galsim/fitswcs.py:GSFitsWCS._read_header", "jax_galsim/fitswcs.py:GSFitsWCS._xy"]}
{"id": "C63", "title": "Angle wrapping", "statement": "Angle.wrap(center) differs from the angle by a whole number of turns and lies within half a turn of center; it is idempotent and unit conversions round-trip.", "quantifier": "all angles and centers", "why_tests_cant": "all reals; boundary cases", "anchors": ["jax_galsim/angle.py:Angle.wrap"]}
{"id": "C64", "title": "Sexagesimal formatting", "statement": "hms/dms strings have 0<=minutes<60, 0<=seconds<60, carry correctly on rounding, and parsing a formatted string returns the angle to within half a unit of the last printed digit.", "quantifier": "all angles and precisions", "why_tests_cant": "carry chains (59.9999) for all precisions", "anchors": ["jax_galsim/angle.py:Angle._make_dms_string", "jax_galsim/angle.py:Angle._parse_dms"]}
{"id": "C65", "title": "Interpolation kernels interpolate", "statement": "Every interpolant's kernel is 1 at 0 and 0 at other integers, is even, vanishes outside its declared range, is continuous where documented, and its integer translates sum to one (Linear, Cubic, Quintic), with polynomials up to its order reproduced.", "quantifier": "all real arguments", "why_tests_cant": "identity over all reals", "anchors": ["jax_galsim/interpolant.py:Linear", "jax_galsim/interpolant.py:Cubic", "jax_galsim/interpolant.py:Quintic", "jax_galsim/interpolant.py:Nearest"]}
{"id": "C66", "title": "Lanczos closed forms", "statement": "The expanded Lanczos kernels equal sinc(x) sinc(x/n) with the documented DC correction for all n in 1..7 and all x.", "quantifier": "all x, n = 1..7", "why_tests_cant": "trigonometric identity over all reals", "anchors": ["jax_galsim/interpolant.py:Lanczos"]}
{"id": "C67", "title": "Interpolated images reproduce their pixels", "statement": "InterpolatedImage.xValue at a pixel center returns that pixel's (flux-normalised) value, is linear in the image, and only depends on pixels within the interpolant range; with Nearest every position in the image returns the value of the pixel containing it.", "quantifier": "all images, all positions", "why_tests_cant": "all positions incl. fractional parts on both sides of 0.5", "anchors": ["jax_galsim/interpolatedimage.py:_draw_with_interpolant_xval"]}
{"id": "C68", "title": "Half-plane k-image lookup equals full periodic lookup", "statement": "Interpolating an InterpolatedImage in k-space through the stored half plane gives the same values as indexing the full Hermitian periodic plane.", "quantifier": "all sizes and frequencies", "why_tests_cant": "all index wraps", "anchors": ["jax_galsim/interpolatedimage.py:_draw_with_interpolant_kval"]}
{"id": "C69", "title": "stepk of an interpolated image encloses the flux", "statement": "The radius used to set stepk for an InterpolatedImage encloses at least (1 - folding_threshold) of the flux whenever the image does, and is the smallest such radius examined.", "quantifier": "all images", "why_tests_cant": "flux distributions where no interior box reaches the threshold", "anchors": ["jax_galsim/interpolatedimage.py:_calculate_size_containing_flux"]}
{"id": "C70", "title": "Akima interpolation passes through its data", "statement": "The Akima interpolator returns y_i at x_i, is continuously differentiable inside the range, zero outside, and reproduces straight lines; the fixed-spacing and search-based lookups agree.", "quantifier": "all tables and abscissae", "why_tests_cant": "all tables", "anchors": ["jax_galsim/core/interpolate.py"]}
{"id": "C71", "title": "Bisection root finder keeps a bracket", "statement": "bisect_for_root returns a value within (high-low)/2^niter of a sign change, for every function with a sign change on the interval.", "quantifier": "all functions, intervals, iteration counts", "why_tests_cant": "all functions", "anchors": ["jax_galsim/utilities.py:bisect_for_root"]}
{"id": "C72", "title": "Parameter equality is an equivalence", "statement": "The equality used for gsobject/gsparams parameters with arrays is reflexive, symmetric, and never raises.", "quantifier": "all nested parameter values", "why_tests_cant": "all pairs of nested values", "anchors": ["jax_galsim/core/utils.py:is_equal_with_arrays", "jax_galsim/core/utils.py:ensure_hashable"]}
{"id": "C73", "title": "Polynomial evaluation", "statement": "utilities.horner/horner2d evaluate the polynomial with the given coefficients for every degree; with triangle=True only the upper-left triangle is used.", "quantifier": "all coefficient arrays and points", "why_tests_cant": "all degrees", "anchors": ["jax_galsim/utilities.py:horner", "jax_galsim/utilities.py:horner2d"]}
{"id": "C74", "title": "Spergel photon radii follow the profile", "statement": "The cumulative radial distribution used for shooting a Spergel profile is non-negative, non-decreasing and ends at 1 for every allowed nu.", "quantifier": "all nu in the allowed range", "why_tests_cant": "the nu<=0 branch uses a different inner formula for a continuum of nu", "anchors": ["jax_galsim/spergel.py:Spergel._shoot", "jax_galsim/spergel.py"]}
{"id": "C75", "title": "Image arithmetic is pixelwise and shape-checked", "statement": "im1 op im2 and im op scalar act pixel by pixel on images of the same shape, results have im1's bounds and wcs, operands are not modified, in-place forms give the same pixels as the binary forms, and shape mismatches raise.", "quantifier": "all images and operators", "why_tests_cant": "all shapes/values", "anchors": ["jax_galsim/image.py:Image.__add__", "jax_galsim/image.py:Image.__iadd__"]}
{"id": "C76", "title": "Position arithmetic is a vector space", "statement": "Positions obey vector-space laws; integer positions stay integer under +,-,* with integers and reject non-integers.", "quantifier": "all positions and scalars", "why_tests_cant": "all values", "anchors": ["jax_galsim/position.py"]}
{"id": "C77", "title": "Image moments", "statement": "unweighted moments of an image transform correctly: total flux, centroid shift under image shift, and scaling of second moments.", "quantifier": "all images", "why_tests_cant": "all images", "anchors": ["jax_galsim/utilities.py:unweighted_moments"]}
{"id": "C78", "title": "Allowing extra noise does not bias the drawn flux", "statement": "When the number of photons is computed automatically, setting max_extra_noise changes how many photons are shot but not the total flux they carry.", "quantifier": "all profiles, surface brightnesses and max_extra_noise values", "why_tests_cant": "The bias is a multiplicative factor depending on max_sb that hides below the tolerance of statistical photon tests; a proof fixes the total flux for every tree of profiles and every parameter.", "anchors": ["jax_galsim/core/draw.py:366-479", "jax_galsim/gsobject.py:1405-1546"]}
{"id": "C79", "title": "Copying photons touches only the photons copied", "statement": "PhotonArray.copyFrom/assignAt gives the target photons the positions, fluxes and kept flags of the source photons and leaves every other photon unchanged.", "quantifier": "all photon arrays, index sets and kept/dropped patterns", "why_tests_cant": "Stored fluxes depend on the number of kept photons, so every copy rescales all stored fluxes; only a proof over all masks shows what stays visible.", "anchors": ["jax_galsim/photon_array.py:532-662"]}
{"id": "C80", "title": "Photons of a Sum come from its components", "statement": "Each photon of a Sum is a photon shot from exactly one of its components, and carries flux +/- (sum of absolute fluxes)/N with the component's sign.", "quantifier": "all sums, component choices and photon numbers", "why_tests_cant": "Tests compare binned moments statistically; the per-photon selection is only visible by reasoning over every category assignment.", "anchors": ["jax_galsim/sum.py:191-240", "jax_galsim/photon_array.py:664-690"]}
{"id": "C81", "title": "Transforms of images", "statement": "Image.calculate_fft gives, at each stored frequency, the Fourier sum of the pixels times dx^2, and calculate_inverse_fft of it gives the image back, padded with zeros to the transform size, with the same scale.", "quantifier": "all images, origins and pixel scales", "why_tests_cant": "sums over all sizes and values; tests compare a few sizes to NumPy", "anchors": ["jax_galsim/image.py:Image.calculate_fft", "jax_galsim/image.py:Image.calculate_inverse_fft"]}
{"id": "C82", "title": "Photon noise removes exactly the sky it adds", "statement": "PoissonNoise replaces each pixel p by draw - sky_level where draw is Poisson with mean max(p + sky_level, 0); on float images exactly, on integer images to within one count even for fractional sky levels.", "quantifier": "all images, sky levels and generator states", "why_tests_cant": "Tests compare sample means and variances at a few sky levels; truncation of fractional sky on integer images is a per-pixel all-values statement.", "anchors": ["jax_galsim/noise.py:205-250"]}
{"id": "C83", "title": "GSParams equality and hashing", "statement": "Two GSParams compare equal exactly when all fields have equal values; equal GSParams should hash equally.", "quantifier": "all pairs of GSParams, with integer or float valued fields", "why_tests_cant": "all pairs of parameter values", "anchors": ["jax_galsim/gsparams.py:GSParams.__eq__", "jax_galsim/gsparams.py:GSParams.__hash__"]}
{"id": "C84", "title": "Convolution is nesting-independent", "statement": "Convolve(a, Convolve(b, c)) and Convolve(a, b, c) have the same gsparams, Fourier amplitude, flux, centroid, positive and negative flux, maxk, stepk, max_sb and symmetry.", "quantifier": "all lists of profiles, all positions of the nested convolution", "why_tests_cant": "all nestings", "anchors": ["jax_galsim/convolve.py:Convolution.__init__", "jax_galsim/convolve.py:Convolution._stepk", "jax_galsim/convolve.py:Convolution._max_sb", "jax_galsim/convolve.py:Convolution._calc_pn"]}
{"id": "C85", "title": "is_axisymmetric is sound", "statement": "A profile tree that reports is_axisymmetric has surface brightness and Fourier amplitude depending on the radius only, given that this holds of the leaves.", "quantifier": "all profile trees", "why_tests_cant": "all points and trees", "anchors": ["jax_galsim/transform.py:Transformation._is_axisymmetric", "jax_galsim/sum.py:Sum._is_axisymmetric", "jax_galsim/convolve.py:Convolution._is_axisymmetric"]}
{"id": "C86", "title": "gsparams propagate through trees", "statement": "With default propagation all components of a profile share one set of gsparams after any construction, operation or withGSParams; withGSParams changes exactly the named fields and does not change flux, centroid or values.", "quantifier": "all profile trees, all keyword sets", "why_tests_cant": "unbounded trees and all keyword combinations", "anchors": ["jax_galsim/gsobject.py:GSObject.withGSParams", "jax_galsim/transform.py:Transformation.withGSParams", "jax_galsim/sum.py:Sum.withGSParams", "jax_galsim/convolve.py:Convolution.withGSParams"]}
{"id": "C87", "title": "Bandwidths of trees are safe", "statement": "If every leaf's amplitude is at most a fraction of its flux beyond its maxk, the same holds of every tree of positive transformations, sums and convolutions; the disc of radius pi/stepk of a tree of transformations and sums contains the images of its leaves' discs.", "quantifier": "all trees, jacobians, offsets, wave numbers", "why_tests_cant": "all directions and trees", "anchors": ["jax_galsim/transform.py:Transformation._maxk", "jax_galsim/transform.py:Transformation._stepk", "jax_galsim/sum.py:Sum._maxk", "jax_galsim/convolve.py:Convolution._maxk"]}
{"id": "C88", "title": "drawImage can draw what it chooses to draw", "statement": "drawImage picks real-space drawing exactly for profiles reporting is_analytic_x, and every profile reporting is_analytic_x can be evaluated and drawn in real space.", "quantifier": "all profiles and methods", "why_tests_cant": "all combinations of components", "anchors": ["jax_galsim/gsobject.py:GSObject.drawImage", "jax_galsim/convolve.py:Convolution._is_analytic_x"]}
{"id": "C89", "title": "Angle arithmetic respects units", "statement": "Sums, differences and comparisons of angles are defined only between angles, products and quotients only where the result is a number or an angle; angles form an ordered vector space; every other combination raises TypeError.", "quantifier": "all angles, units and numbers", "why_tests_cant": "every combination of operand kinds and all real values; tests sample a few.", "anchors": ["jax_galsim/angle.py:Angle.__add__", "jax_galsim/angle.py:Angle.__mul__", "jax_galsim/angle.py:AngleUnit.__rmul__"]}
{"id": "C90", "title": "The Jacobian of the deprojection is the derivative of the deprojection", "statement": "jac_deproject(u, v, projection) is the matrix of partial derivatives of deproject: its columns say how far west (first row, an actual distance on the sky, so with cos(dec)) and north (second row) the deprojected point moves per unit of u and of v. At the tangent point it is the identity for every projection.", "quantifier": "all centres, all four projections, all (u, v) in the domain of the projection whose image is not a pole", "why_tests_cant": "A test compares with finite differences at a few points and tolerances; the claim is an identity of derivatives at every point of every projection.", "anchors": ["jax_galsim/celestial.py"]}
{"id": "C91", "title": "Great circles and angles between coordinates obey spherical geometry", "statement": "greatCirclePoint(c2, theta) is the point at angle theta from c1 on the great circle through c1 and c2 (on the side of c2), is undefined exactly for equal or antipodal points; angleBetween(c2, c3) is the signed angle between the tangents to the two sides, and satisfies the spherical law of cosines with distanceTo.", "quantifier": "all coordinates and angles", "why_tests_cant": "Signs, quadrants and near-degenerate triangles are a continuum of cases; a few triangles do not settle which branch of the arctangent is used.", "anchors": ["jax_galsim/celestial.py"]}
{"id": "C92", "title": "area is the area of the spherical triangle", "statement": "For any non-degenerate triangle area(c2, c3) is the sum of its three interior angles minus pi (Girard).", "quantifier": "all triples of coordinates not on one great circle", "why_tests_cant": "Tests use small triangles; large triangles (more than a quarter of the sphere) go through another sign of the denominator.", "anchors": ["jax_galsim/celestial.py"]}
{"id": "C93", "title": "galactic and from_galactic honour the epoch argument", "statement": "galactic(epoch=e) of a coordinate given at epoch e is the galactic position of the same direction precessed to the epoch at which the galactic pole is defined.", "quantifier": "all coordinates, all epochs", "why_tests_cant": "Tests call it with the default epoch only, for which an ignored argument cannot be noticed.", "anchors": ["jax_galsim/celestial.py"]}
{"id": "C94", "title": "Akima interpolation respects the symmetries of its table", "statement": "Adding a straight line to the ordinates adds it to the interpolant; scaling the ordinates scales the interpolant; reading the table from the other end (x -> -x) mirrors the interpolant.", "quantifier": "all tables of three or more increasing abscissae, all points in their range, all lines and scales", "why_tests_cant": "Tests compare with another implementation on a few smooth tables, away from the end segments and at order-one amplitude, where an end rule or an absolute threshold is invisible.", "anchors": ["jax_galsim/core/interpolate.py"]}
{"id": "C95", "title": "All forms of a position argument mean the same position", "statement": "f(x, y), f(pos), f((x, y)) and f(x=x, y=y), followed by the remaining arguments by position or by name, parse to the same position and remaining values; every other call raises TypeError.", "quantifier": "all argument lists, keyword dictionaries, parameter names and lists of further parameters", "why_tests_cant": "The number of argument shapes (which arguments by name, in which order, how many missing or extra) is unbounded; tests try a handful.", "anchors": ["jax_galsim/utilities.py", "jax_galsim/image.py", "jax_galsim/bounds.py"]}
{"id": "C96", "title": "The Fourier transforms of the interpolants are those of their kernels", "statement": "kval(k) is the integral of xval(x) cos(k x) over the range of the kernel for Nearest, Linear, Cubic and Quintic; Sinc is the transform of its band; the raw Lanczos transform built from Si is the transform of the Lanczos kernel of that order.", "quantifier": "all frequencies, all Lanczos orders", "why_tests_cant": "compares two independent closed forms over all frequencies; a wrong coefficient of high order is small at the sampled ones", "anchors": ["jax_galsim/interpolant.py:Cubic._uval", "jax_galsim/interpolant.py:Quintic._uval", "jax_galsim/interpolant.py:_gs_raw_uval"]}
{"id": "C97", "title": "Stored integrals of the kernels", "statement": "unit_integrals are the integrals of the kernel over the unit intervals about 0, 1, 2, ...; positive_flux and negative_flux are the integrals of the positive and the negative part of the kernel.", "quantifier": "all interpolants with stored constants, all entries; Sinc for every entry", "why_tests_cant": "tests compare with numerical quadrature to a tolerance", "anchors": ["jax_galsim/interpolant.py:Cubic", "jax_galsim/interpolant.py:Quintic", "jax_galsim/interpolant.py:_sinc_unit_integrals"]}
{"id": "C98", "title": "krange bounds the transform", "statement": "Beyond krange the transform of an interpolant is at most kvalue_accuracy in absolute value.", "quantifier": "all accuracies, all frequencies beyond the range", "why_tests_cant": "unbounded set of frequencies and accuracies", "anchors": ["jax_galsim/interpolant.py:Cubic.urange", "jax_galsim/interpolant.py:Quintic.urange", "jax_galsim/interpolant.py:Linear.urange"]}
{"id": "C99", "title": "Interpolant.from_name", "statement": "from_name does not depend on the case of letters, gives the documented interpolant for each documented name (with T or F after a Lanczos order for conserve_dc) and raises GalSimValueError for every other string.", "quantifier": "all strings", "why_tests_cant": "all strings", "anchors": ["jax_galsim/interpolant.py:Interpolant.from_name"]}
{"id": "C127", "title": "Photons shot from an interpolant", "statement": "Positions of photons shot from Cubic and Quintic are distributed as the absolute value of the kernel (within the table's spacing), inside its range, with signed weights whose mean is the kernel's integral 1; those of Delta, Nearest and Linear have exactly the kernel's distribution and N photons total flux 1; SincInterpolant refuses.", "quantifier": "all deviates in [0,1), tables of at least 10000 points, any photon count, any correct search of the table", "why_tests_cant": "a statement on distributions: sampling has statistical error and never covers the support", "anchors": ["jax_galsim/interpolant.py:Interpolant._shoot", "jax_galsim/interpolant.py:Interpolant._shoot_cdf", "jax_galsim/interpolant.py:Linear._shoot"]}
{"id": "C128", "title": "Photons shot from an interpolated image", "statement": "Photons of an InterpolatedImage are pixels picked with probability proportional to their absolute value, plus photons of the interpolant, carried to world coordinates; the mean of anything they record is that of the image convolved with the interpolant's photons, and their total is the flux of the profile.", "quantifier": "all images, wcs, interpolants, photon counts, recorded quantities; mean over all choices of pixels", "why_tests_cant": "an expectation over all random choices, for images with pixels of any sign", "anchors": ["jax_galsim/interpolatedimage.py:_InterpolatedImageImpl._shoot", "jax_galsim/transform.py:Transformation._shoot"]}
{"id": "C129", "title": "Profiles and coordinate systems survive JAX taking them apart", "statement": "Flattening any profile that constructors and withGSParams can give into leaves and structure and putting it together again gives an object with the same components, numbers, gsparams and flags, and the same structure; likewise for coordinate systems.", "quantifier": "all trees of Gaussian, Exponential, DeltaFunction, Box, Pixel, Moffat, Spergel, InterpolatedImage, Transformation, Sum, Convolution, Deconvolution of any depth; all histories of withGSParams; all values of gsparams", "why_tests_cant": "tests flatten a few objects; the trees and the histories of withGSParams are unbounded", "anchors": ["jax_galsim/gsobject.py:tree_flatten", "jax_galsim/gsobject.py:tree_unflatten", "jax_galsim/convolve.py:Convolution.withGSParams", "jax_galsim/sum.py:Sum.__init__", "jax_galsim/wcs.py:tree_unflatten"]}
{"id": "C130", "title": "A structure accepts any leaves", "statement": "JAX puts gradients, zeros and placeholder objects in the place of an object's leaves; tree_unflatten accepts exactly those that pass the checks of constructors, and gives an object with these leaves and the same structure; no such check should stand in the way.", "quantifier": "all objects of C129, all lists of leaves", "why_tests_cant": "all trees and all leaves; tests differentiate few profiles", "anchors": ["jax_galsim/moffat.py:Moffat.__init__", "jax_galsim/interpolatedimage.py:_InterpolatedImageImpl.__init__", "jax_galsim/gsobject.py:tree_unflatten", "jax_galsim/wcs.py:ShearWCS.__init__"]}
{"id": "C131", "title": "The gradient JAX computes is the derivative", "statement": "For every program built from the operations the code uses, backpropagation at a point where every operation performed is differentiable gives finite numbers, the partial derivatives of the function over the reals; for Gaussian, Exponential, Moffat (real space), Spergel and Box (Fourier space), a pixel of a sheared Exponential and the conversions of Shear these points are all but the exceptional ones named.", "quantifier": "all programs, all points, all variables", "why_tests_cant": "tests compare a few gradients with finite differences at x = 0.3", "anchors": ["jax_galsim/gaussian.py:_xValue,_kValue", "jax_galsim/exponential.py:_xValue,_kValue", "jax_galsim/moffat.py:_xValue", "jax_galsim/spergel.py:_xValue,_kValue", "jax_galsim/box.py:_kValue", "jax_galsim/core/draw.py:draw_by_xValue", "jax_galsim/shear.py:_e2g,_g2eta,_eta2g"]}
{"id": "C132", "title": "Gradients are finite wherever the function is differentiable", "statement": "At points that are special in the code only (centre of a profile, zero shear, equal scales) the gradient of a differentiable function is finite and its derivative: no nan from a branch not taken or from the square root of zero.", "quantifier": "all parameters at the special points", "why_tests_cant": "tests evaluate gradients off the special points", "anchors": ["jax_galsim/core/math.py:safe_sqrt", "jax_galsim/exponential.py:_xValue", "jax_galsim/spergel.py:_xValue,fz_nu", "jax_galsim/shear.py:_eta2g,_g2eta", "jax_galsim/wcs.py:JacobianWCS._minScale"]}
{"id": "C133", "title": "Fourier values of the Moffat profile", "statement": "Moffat.kValue is the flux at k = 0, depends on |k| only, equals the analytic transform 4 F (k r0)^(beta-1) K_(beta-1)(k r0) / (2^beta Gamma(beta-1)) at every node of its table, is finite and continuous everywhere including across maxk where the table ends.", "quantifier": "all beta, scale radii, fluxes and k", "why_tests_cant": "tests compare a few k of a few profiles with GalSim; a zero flux or the joint at maxk is not visited", "anchors": ["jax_galsim/moffat.py:_kValue,_kValue_untrunc_func,_kValue_untrunc_asymp_func,_kValue_untrunc_interp_coeffs,_knorm,_knorm_bis"]}
{"id": "C134", "title": "Accuracy of Akima tables", "statement": "For a function with |f''| <= M tabulated with errors up to e at spacings in [g, h], the Akima interpolant is within M h^2/2 + e (1 + 3h/(2g)) of it everywhere in the table; for Moffat.kValue with half-integer beta this is F ((maxk r0 / 699)^2 / 2 + 2.5e-12) for all k up to maxk.", "quantifier": "all tables, all functions with a bounded second derivative, all points", "why_tests_cant": "tests sample sin(x) on one grid; an error bound needs every function and every point between nodes", "anchors": ["jax_galsim/core/interpolate.py:akima_interp,akima_interp_coeffs", "jax_galsim/moffat.py:_kValue_untrunc_interp_coeffs"]}
{"id": "C135", "title": "maxk of the Moffat profile", "statement": "The fitted rational function behind Moffat.maxk has no pole in its range, maxk is positive and inversely proportional to the scale radius, and the transform at maxk is the maxk_threshold for every profile and threshold the constructor accepts.", "quantifier": "all beta and thresholds accepted by the constructor", "why_tests_cant": "a pole or a bad region of a 357-coefficient fit can hide between any two tested points; values beyond the fit are not tested", "anchors": ["jax_galsim/moffat.py:_maxk,_logmaxk_func,_pade_func,RATIONAL_POLY_VALS"]}
{"id": "C136", "title": "Fourier values of the Moffat profile beyond maxk", "statement": "Beyond maxk the continuation of kValue is exact for beta = 3/2 and 5/2, lies between the transform and its value at maxk for half-integer beta, never rises and never exceeds the flux.", "quantifier": "all half-integer beta, thresholds and k beyond maxk", "why_tests_cant": "tests look at a few k just beyond maxk for beta below 10", "anchors": ["jax_galsim/moffat.py:_kValue,_kValue_untrunc_asymp_func"]}
{"id": "C137", "title": "drawFFT evaluates a Fourier sum", "statement": "Whenever drawFFT succeeds on a centred image, each pixel is the pixel area times (dk/2pi)^2 times the sum of kValue(j dk, l dk) e^(i(...)) over a square |j|, |l| <= M with M dk >= maxk and dk N scale = 2 pi, for every profile with a Hermitian kValue; with all waves the sum is the profile plus its images at multiples of the period.", "quantifier": "all Hermitian kValue functions, maxk, stepk, scales, centred images and FFT limits below 131072", "why_tests_cant": "a wave counted twice or dropped in the folding, at the Nyquist column or in the shifts shows only for particular sizes and profiles; tests compare a few profiles with a tolerance", "anchors": ["jax_galsim/gsobject.py:drawFFT,drawFFT_makeKImage,drawFFT_finish", "jax_galsim/core/draw.py:draw_by_kValue", "jax_galsim/image.py:_wrap"]}
{"id": "C138", "title": "drawFFT of a Gaussian is the Gaussian", "statement": "Drawing a Gaussian through Fourier space gives the surface brightness times the pixel area (or, convolved with the pixel, the integral over the pixel) at every pixel, up to an explicit error from folding and truncation; with thresholds at least as strict as the defaults it is below 5e-4 (6e-4 with the pixel) of the peak.", "quantifier": "all sigma, fluxes, scales (pixels up to 500 sigma), centred images, thresholds maxk_threshold <= 1e-3 and stepk_minimum_hlr >= 5", "why_tests_cant": "tests compare a handful of sizes with reference images; the error bound must hold at every pixel of every image for every sigma", "anchors": ["jax_galsim/gsobject.py:drawFFT,drawImage", "jax_galsim/gaussian.py:_maxk,_stepk,_kValue", "jax_galsim/convolve.py:_kValue,_maxk,_stepk", "jax_galsim/box.py:_kValue"]}
{"id": "C139", "title": "drawFFT is linear, moves with the profile and keeps the flux", "statement": "On one and the same grid the image of a weighted sum of profiles is the weighted sum of the images; a profile moved by whole pixels gives the moved image (cyclically in the period N); a point symmetric profile gives a point symmetric image; an image that holds a whole period sums to kValue(0,0) if maxk is below 2 pi/scale, and to the flux exactly, for every maxk, when the profile is convolved with the pixel.", "quantifier": "all Hermitian kValue functions, weights, displacements by whole pixels, maxk, stepk, scales, centred images and FFT limits below 131072", "why_tests_cant": "tests compare fluxes of a few drawn profiles with tolerances that hide what truncation and folding do; exact conservation for every profile and size cannot be sampled", "anchors": ["jax_galsim/gsobject.py:drawFFT,drawFFT_makeKImage,drawFFT_finish,drawImage", "jax_galsim/convolve.py:_kValue", "jax_galsim/sum.py:_kValue", "jax_galsim/box.py:_kValue"]}
{"id": "C140", "title": "An exponential profile drawn through Fourier space", "statement": "Each pixel of an Exponential drawn by drawFFT is the pixel area times its surface brightness at the centre of the pixel (with the pixel convolved in: the integral of the surface brightness over the pixel), up to an error relative to the peak that is bounded by the images of the profile at twice pi/stepk, exponentially small in pi/(stepk r0), and by the waves beyond maxk, of the order of 1/(maxk r0). With its own maxk and stepk the drawn image converges to the profile as maxk_threshold goes to 0 and stepk_minimum_hlr to infinity.", "quantifier": "all Exponential profiles with positive scale radius, of any flux, all maxk, stepk, scales, centred images and FFT limits below 131072, every pixel", "why_tests_cant": "tests draw a few exponentials at fixed thresholds and compare with another implementation; a bound for every profile, grid and pixel and a limit in the thresholds cannot be sampled", "anchors": ["jax_galsim/exponential.py:_kValue,_maxk,_stepk", "jax_galsim/gsobject.py:drawFFT,drawFFT_makeKImage,drawFFT_finish", "jax_galsim/core/draw.py:draw_by_kValue", "jax_galsim/convolve.py:_kValue"]}
{"id": "C141", "title": "Evaluating a profile at an array of positions", "statement": "kValue and xValue given arrays of coordinates return the array of the values at the single positions.", "quantifier": "all profile trees (transformations, sums, convolutions, deconvolutions of any depth), all arrays of positions of any length", "why_tests_cant": "tests evaluate at single positions or under vmap, which never builds an array of positions; the shape of the result depends on the shape of the tree", "anchors": ["jax_galsim/gsobject.py:kValue,xValue", "jax_galsim/convolve.py:_kValue", "jax_galsim/sum.py:_kValue,_xValue", "jax_galsim/transform.py:_kValue,_xValue", "jax_galsim/deltafunction.py:_xValue"]}
{"id": "C142", "title": "Conversion to GalSim and back loses nothing", "statement": "to_galsim followed by from_galsim gives back the same object: angles, positions, bounds, shears, celestial coordinates, GSParams, every WCS class and images (pixels, dtype, bounds, WCS, header, constness); what cannot be converted raises.", "quantifier": "all objects of these classes with legal values, Python or JAX scalars; for WCS objects all GalSim objects accepted as well", "why_tests_cant": "tests convert a few objects with distinct looking values; a lost attribute, a branch never reached or an object on which no branch applies shows only for the inputs not tried", "anchors": ["jax_galsim/wcs.py:BaseWCS.from_galsim,to_galsim", "jax_galsim/image.py:Image.from_galsim,to_galsim", "jax_galsim/bounds.py:Bounds.from_galsim,to_galsim", "jax_galsim/position.py:Position.from_galsim,to_galsim", "jax_galsim/shear.py:Shear.from_galsim,to_galsim", "jax_galsim/gsparams.py:GSParams.from_galsim,to_galsim", "jax_galsim/celestial.py:CelestialCoord.from_galsim,to_galsim", "jax_galsim/angle.py:Angle.from_galsim,to_galsim"]}
{"id": "C143", "title": "Arithmetic of profiles", "statement": "An expression built from profiles and numbers with +, -, *, / and unary minus is evaluated to a profile whose flux, amplitudes and surface brightnesses are those of the expression; what stands for nothing (a profile plus a number, a product or quotient of profiles) raises.", "quantifier": "all expressions of any depth over all profile trees whose values do not depend on gsparams; all positions", "why_tests_cant": "tests add and scale a few profiles; nested expressions meet the flattening of sums, the merging of transformations and the propagation of gsparams in combinations no test enumerates", "anchors": ["jax_galsim/gsobject.py:__add__,__sub__,__mul__,__rmul__,__truediv__,__neg__", "jax_galsim/sum.py:Sum.__init__", "jax_galsim/transform.py:Transform,Transformation.__init__"]}
{"id": "C144", "title": "Making a profile changes no other", "statement": "Scaling a profile leaves the argument, the scaled profile and every profile made before as they were.", "quantifier": "all sequences of scalings of any of the objects made so far, by Python numbers, JAX scalars or NumPy arrays", "why_tests_cant": "tests look at the new object; that an argument or an older object is changed shows only when they are used again, after a particular sequence of calls", "anchors": ["jax_galsim/transform.py:Transformation.__init__", "jax_galsim/gsobject.py:withScaledFlux,__mul__"]}
{"id": "C145", "title": "The text of a transformed profile tells its transformation", "statement": "str of a transformed profile names calls which, applied to the original, move every point where the profile has it, to within 4e-12 of the size of the matrix, multiply the surface brightness by exactly the flux ratio and give the flux to 3e-12; a turn, shear or enlargement alone is told as such, and mirrored profiles are told exactly.", "quantifier": "all invertible matrices, offsets and flux ratios; all sequences of the transforming methods", "why_tests_cant": "tests print a few profiles; which of the branches on the three thresholds is taken, and what is left out of the text, depends on the decomposition of the matrix", "anchors": ["jax_galsim/transform.py:Transformation.__str__,_str_from_jac", "jax_galsim/wcs.py:JacobianWCS.getDecomposition"]}
{"id": "C146", "title": "Equal WCS objects and coordinates have equal hashes", "statement": "== of WCS objects and CelestialCoords is an equivalence that holds exactly when the classes and all values agree; equal objects have equal hashes; objects of the same repr are equal.", "quantifier": "all PixelScale, ShearWCS, JacobianWCS, OffsetWCS, OffsetShearWCS, AffineTransform and CelestialCoord objects, with Python ints or floats, signed zeros included", "why_tests_cant": "tests compare objects built from the same literals; that equal numbers have different texts shows only for mixed number types and computed negative zeros", "anchors": ["jax_galsim/wcs.py:__eq__,__repr__,__hash__", "jax_galsim/celestial.py:CelestialCoord.__eq__,__hash__", "jax_galsim/core/utils.py:ensure_hashable"]}
{"id": "C147", "title": "The representation of a profile evaluates to the profile", "statement": "For every profile built from simple profiles by transformations, sums, convolutions, deconvolutions and changes of gsparams, eval(repr(p)) == p, including the gsparams at every level; where this fails only gsparams differ, and a second trip changes nothing.", "quantifier": "all trees of profiles, all gsparams and propagate_gsparams at each step", "why_tests_cant": "tests evaluate the repr of a handful of profiles, mostly with default gsparams; merging of nested transformations and propagation interact at every depth", "anchors": ["jax_galsim/transform.py:Transformation.__init__,__repr__", "jax_galsim/sum.py:Sum.__repr__", "jax_galsim/convolve.py:Convolution.__repr__,Deconvolution.__repr__"]}
{"id": "C148", "title": "Equal profiles have equal hashes", "statement": "== of profiles is an equivalence, a profile equals what a jitted function returns for it, and equal profiles have equal hashes.", "quantifier": "all trees of simple profiles, transformations, sums, convolutions and deconvolutions, with parameters that are Python numbers or JAX scalars, for any rounding between the two", "why_tests_cant": "tests compare profiles built from the same numbers in one precision; mixing Python numbers and JAX scalars and nesting give unboundedly many combinations", "anchors": ["jax_galsim/gsobject.py:GSObject.__eq__", "jax_galsim/core/utils.py:is_equal_with_arrays,ensure_hashable", "jax_galsim/transform.py:__eq__,__hash__", "jax_galsim/sum.py:__hash__", "jax_galsim/convolve.py:__eq__,__hash__"]}
{"id": "C149", "title": "Angles compare consistently", "statement": "For angles exactly one of <, == and > holds, <= and >= agree with them, == is an equivalence, < is a strict order, and equal angles and angle units have equal hashes.", "quantifier": "all angles and units whose numbers are Python numbers or JAX scalars, for any monotone rounding between the two", "why_tests_cant": "tests compare angles that are far apart or identical; the comparisons disagree only for numbers that differ by less than the precision of JAX", "anchors": ["jax_galsim/angle.py:Angle.__eq__,__lt__,__le__,__gt__,__ge__,__hash__", "jax_galsim/angle.py:AngleUnit.__eq__,__hash__", "jax_galsim/core/utils.py:cast_to_float"]}
{"id": "C150", "title": "A shear can be made again from its complex value", "statement": "Shear(s.shear) and eval(repr(s)) are s for every shear s made from keywords, and real unnamed arguments are refused.", "quantifier": "all shears given by any accepted keywords, and Shear()", "why_tests_cant": "tests rebuild shears with two non-zero components; the branch depends on the value of the imaginary part, not on the type", "anchors": ["jax_galsim/shear.py:Shear.__init__", "jax_galsim/shear.py:Shear.shear,__repr__", "jax_galsim/core/utils.py:ensure_hashable"]}
{"id": "C151", "title": "The centre of a Spergel profile falls with radius", "statement": "The surface brightness that xValue gives for a Spergel profile decreases with the radius over the radii for which the expansion of z^nu K_nu near zero is used.", "quantifier": "all pairs of positions within 1e-10 scale radii of the centre, all scale radii and positive fluxes, all lgamma and kv", "why_tests_cant": "tests compare xValue with GalSim at radii far above the switch at 1e-10, where the expansion is never evaluated", "anchors": ["jax_galsim/spergel.py:fsmallz_nu,fz_nu,_gamma", "jax_galsim/spergel.py:Spergel._xValue"]}
