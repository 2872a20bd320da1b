# Formal model of JAX-GalSim in Rocq (Coq 8.16.1)

The source modelled is `/repo/jax_galsim` (read as text; it is never run here).
Everything below is about the model; the only tie between model and code is the
citation (file and lines) carried by every definition.

## Conventions

* `X_Model.v` – definitions only, one per function of the code, each with a citation.
  Exceptions are values (`Err e`), mutation is state passing, optional attributes are `option`.
* `X_Spec.v` – small independent specifications (sets of pixels, sums over residues, ...).
* `X_Proofs.v` – lemmas.
* `X_Props.v` – the property theorems only, each closed by `exact`, with `Print Assumptions`
  below it and `Example`s showing that the hypotheses are met.
* Integers are `Z` (unbounded; int32/int64 overflow is not modelled), floating point numbers
  are Coq reals `R` (rounding is not modelled unless a property is about rounding to integer),
  random bits come from an abstract key type with abstract `split` and per-distribution samplers
  (section variables, discharged into universally quantified arguments).
* A theorem name ending in `_refuted` proves that the property's statement is false of the model
  (with a witness); a name ending in `_partial` proves part of it. Each of those is listed as a
  finding or as an open part below.

## Plan per property

| id | model | proof |
|----|-------|-------|
| C01 C02 C06 | `Bounds`: record (defined, xmin, deltax, ymin, deltay), constructor logic, `&`, `+`, includes, shift, withBorder, center, area | extensional (point-set) specification, `lia` |
| C03 C04 C05 | constructor/copy/flatten/hash branches of `Bounds` | case analysis; C03 and C04 are expected false for undefined bounds: `_refuted` plus the exact guard |
| C07 C08 C76 | `Image`: array as function on Z×Z plus shape; ops as a step function returning result | refinement to a partial map from positions to values, induction over op lists |
| C09 | same step function with const flag and *all* mutators | expected false for in-place operators: `_refuted`, plus theorem for the checked mutators |
| C10 | image + affine wcs | induction over shift lists |
| C11 | array permutations, missing attribute as explicit `option` | equations; attribute part `_refuted` |
| C12 C14 | `wrap_nonhermitian` with roll/pad/reduce/update as in the code | arithmetic on residues, sums over lists |
| C13 | flatten/unflatten of optional children | case analysis, `_refuted` |
| C15 C16 | expand/contract, two block reductions | function extensionality free: pointwise equality |
| C17 | `good_fft_size` over R with ceil/log2/power | reals; `_refuted` for `>= n` |
| C18 C19 C20 | drawFFT sizes, `_setup_image`, `_get_new_bounds`, `_adjust_offset` | case analysis + `lia`/`lra` |
| C21 | rounding model of `_drawReal` on integer images | `_refuted` |
| C22 | while loop as fuelled recursion | induction; termination measure |
| C23 C24 C26 C29 | PhotonArray record with lists of reals and mask | invariants by induction over ops; C23, C29 `_refuted` |
| C25 C27 | binning and photon making | induction over photon lists |
| C28 | `calculate_n_photons` decision logic | reals + ceil; `_refuted` for negative flux |
| C30 C31 C32 C34 | heap of deviate states (object identity explicit), abstract key splitting | induction over programs; refinement to "stream position" spec |
| C33 C37 | noise `_applyTo` as a state transformer on that heap, `lax.cond` operand copy explicit | `_refuted` for CCDNoise; proved for the others |
| C35 C36 | variance formulas over R | field |
| C38–C43 C45 C84–C88 | inductive profile trees with leaf functions R²→R / C; `Transformation`, `Sum`, `Convolution`, `Deconvolution` methods, gsparams, drawing route | structural induction |
| C44 | decision logic | case analysis |
| C46 | record of fields with min/max | lattice laws |
| C127 C128 | photons of interpolants and interpolated images | distributions as integrals, table against integral of the kernel's absolute value, finite expectations |
| C129 C130 | pytrees of profiles and coordinate systems | induction over trees; invariant of all constructors and withGSParams; exact set of accepted leaves |
| C131 C132 | automatic differentiation | induction over programs (reverse mode = derivative along curves); values with inf and nan at special points |
| C133–C136 | Moffat profile in Fourier space: values, table accuracy, maxk, continuation | Bessel polynomials, Taylor estimates for Akima slopes, interval arithmetic by reflection over the fit |
| C137–C139 | drawFFT as a Fourier sum; a Gaussian drawn through Fourier space; linearity, moves and the total of a period | discrete transforms and folding as sums over residues, Poisson summation (uniqueness of Fourier coefficients by a power kernel, uniform convergence), tail estimates |
| C140 | an exponential profile drawn through Fourier space: error bounds, convergence as the thresholds tighten | the profile and its transform as a mixture of Gaussians of all widths, improper integrals as limits, averages of Fourier sums |
| C141 | evaluating a profile at an array of positions: entry by entry without a Convolution; with one, refuted (F92, F93) | arrays with at most one axis, broadcasting, stacking; induction on the tree |
| C142 | conversion to GalSim and back: values, positions, bounds, WCS, images; refuted for empty defined bounds, own WCS objects, headers and constness (F94-F96) | constructors of GalSim by contract; case analysis |
| C143 | expressions of profiles with + - * / evaluate to what they stand for; products of profiles are accepted (F97) | induction on the expression |
| C144 | scaling changes neither arguments nor other profiles; refuted for NumPy arrays (F98) | a heap of arrays, runs of scalings; invariant |
| C145 | the text of a transformed profile tells its transformation to within 4e-12 | the decomposition of C53 (existence, here also uniqueness); bounds in the Frobenius norm; induction over the methods called |
| C146 | == of WCS objects is an equivalence on values; equal hashes only for floats without negative zeros (F99) | cases over the classes; numbers with sign bit and type |
| C147 | evaluating the representation of a profile tree gives it back; not for re-transformed transformations that keep gsparams to themselves (F100) | an invariant on gsparams and nesting kept by all constructors; induction over trees |
| C148 | == of profiles is reflexive and symmetric and holds after jit; transitivity and equal hashes only without mixed precision (F101) | induction over trees; the rounding to the precision of JAX is any idempotent function |
| C149 | == of angles is an equivalence and < a strict order; they fit together and with the hash only for numbers that JAX holds exactly (F102) | cases over Python numbers and JAX scalars; any monotone idempotent rounding |
| C150 | Shear(s.shear) is s when s has a second component, eval(repr(s)) is s always; refuted for shears along an axis (F103) | case split on the kind of the unnamed argument over C50 |
| C151 | near the centre a Spergel profile falls with radius for nu = 0, 1, 3, 4; refuted for every other nu in (0, 1.99), where it rises (F104) | monotonicity of the expansions; bounds on ln |
| C47 C48 C113–C116 | elementary profiles: sizes, bandwidths, flux, transforms, shooting | real analysis (exp, ln, power), improper integrals, properties of Bessel functions as hypotheses |
| C117 C118 | int1d, Clenshaw–Curtis quadrature | cosine sums, interpolation of polynomials by cosines, improper integrals; the adaptive integrator as a hypothesis |
| C119–C121 | Bessel functions: rational approximations, series, continued fraction, recurrences | derivatives of defects and polynomial positivity checked by reflection; closed forms for half-integer orders |
| C122, C123 | CelestialWCS for any _radec: units, positions, origins; the sky image against the solid angle of a pixel | finite differences by repeated mean value arguments (`central`), then vectors on the sphere |
| C124–C126 | drawImage and drawKImage as operations on image objects: arguments refused, wcs used, state of the image on every exit | case analysis over all exits; the drawing itself is a parameter |
| C49 C50 | complex shear algebra | field/nra |
| C51–C56 | classes of `wcs.py` as records and methods | field |
| C57–C62 C107–C112 | celestial coordinates and `fitswcs.py` | trig identities, algebra, polynomials |
| C63 C64 | Angle | Int_part, integer arithmetic |
| C65–C69 C81 C96–C106 | kernels; interpolated image evaluation, padding, transforms, sizes | `field`, `nra`, trig, finite sums, orthogonality of the discrete characters |
| C70 C71 | Akima, bisection | Hermite polynomial algebra; induction |
| C72 C73 C76 C77 | utilities | case analysis, induction |
| C74 | Spergel cumulative flux tables | nu > 0 proved; nu = -1/2 `_refuted` |
| C75 C78–C80 C82 C83 | RNG/noise and image properties found on the way | as for C30–C37, C07–C16 |

## Trusted base

* Coq 8.16.1 kernel (`coqc`), the standard library (reals, classical logic as listed below) and
  Coquelicot 3 (definitions and lemmas on `C`, derivatives and integrals; it adds no axioms).
* The reading of the code: every definition of a `*_Model.v` file cites file and lines.
* The specifications (`*_Spec.v`) and the statements in `*_Props.v`.

Not modelled anywhere: gradients other than those of `AD_*`, jit/vmap tracing (apart from the explicit "JAX scalar" branches of Bounds,
Image and Shear), float rounding and int overflow (unless stated), warnings, `repr` strings (unless
stated), plotting, FITS file input/output, and the numerical quality of approximations.

In the model files a comment with file and lines covers the definitions that follow it up to the next comment; small helpers
without a counterpart in the Python code (sums, lists, options, comparisons) carry no citation of their own.

What each group of files models:

* `Bounds_*`: bounds.py, position.py as used there. `Array_*`, `Image_*`, `Wrap_*`:
  image.py (arrays as functions with a shape; dtype rules where a property needs them).
* `FFT_*`, `Draw_*`: gsobject.py drawing set-up, drawFFT sizes, drawReal.
* `Photon_*`: photon_array.py, `_shoot` of profiles, drawPhot loop.
* `RNG_*`, `Noise_*`: random.py, noise.py; `jax.random` is an abstract record of functions.
* `Geo_*`, `Shear_*`: 2x2 matrices, shear.py. `GSP_*`: gsparams.py.
* `Prof_*`: gsobject.py (methods making new profiles, drawing route), transform.py, sum.py,
  convolve.py, core/draw.py; leaves are records of functions.
* `WCS_*`: the Euclidean classes of wcs.py. `_isLocal` (the attribute), `pixelArea`,
  `minLinearScale`, `maxLinearScale` and `writeToFitsHeader` are inherited from the galsim
  package, whose text is not in /repo: `_isLocal` is left open (both values), the others are
  modelled as documented. Not modelled: PositionI against PositionD, color, and what galsim's
  `writeToFitsHeader` passes to `shiftOrigin` (a galsim position would fail its isinstance check).
* `Angle_*`: angle.py: units, arithmetic and comparisons with their dynamic type checks, `wrap`,
  `hms`/`dms` text and its parser, unit names. An angle is a real number of radians; text is a list
  of characters; Python's `str.format` of integers and `float` of digit strings are modelled for
  plain decimal digits (no exponents, no "inf"/"nan" words). A one-element tuple as separator is not
  covered: the code prints the tuple itself.
* `Sky_*`: celestial.py: vectors and auxiliary values, distances, great circles, angles, areas, the four
  projections and their Jacobian, galactic and ecliptic coordinates, precession. arcsin and arccos outside
  [-1, 1] (nan in the code) are not followed: the theorems show the arguments stay inside. The position of the
  sun (computed by the coord package) is an open number. hash, repr and pytree flattening are not modelled.
  The spec (`Sky_Spec.v`) speaks of unit vectors, dot and cross products and rotations only.
* `Util_*`: core/utils.py (bisect_for_root, is_equal_with_arrays on numbers with nan, arrays, lists, tuples,
  sets of numbers and dicts with string keys, ensure_hashable on numbers and arrays), utilities.py (horner,
  horner2d, unweighted_moments, unweighted_shape, g1g2_to_e1e2). What `jnp.array_equal` does with an operand
  that is neither a number nor an array is a parameter. Dtypes are not followed.
* `Pos_*`: position.py (PositionD, PositionI: construction from numbers, positions, tuples and keywords, +, -, unary -,
  *, /, ==, round, shear) and utilities.py parse_pos_args. Positions passed as general indexables are modelled as
  sequences of values.
* `Akima_*`: core/interpolate.py: akima_interp_coeffs with NumPy and with JAX (they differ in how the division is
  guarded), the two interval lookups, akima_interp. Reals for floats; array slices and masks are followed element by
  element. Tables have at least three points.
* `Interp_*`: interpolant.py: xval, uval, kval, urange, krange, xrange, ixrange, the stored fluxes and unit integrals of
  Delta, Nearest, SincInterpolant, Linear, Cubic, Quintic and Lanczos, _gs_raw_uval, _sinc_unit_integrals, from_name.
  The Lanczos tables (_K_arr_vals, fluxes, unit integrals) are parameters or left out; galsim.bessel.si is a parameter
  assumed to be the sine integral where stated (`Si_of`, shown to exist). Not modelled: the interpolated kval table of
  Lanczos, _gs_uval with conserve_dc, _sinc_fluxes, pytree methods, equality and hashing.

* `II_*`: interpolatedimage.py: _draw_with_interpolant_xval and _kval with their wrapped and clamped indices, padding, offset,
  flux ratio, centroid, _getStepK, _find_maxk, xValue and kValue of the outer object and of _InterpolatedImageImpl,
  positive and negative flux, __eq__; image.py: calculate_fft and calculate_inverse_fft. The interpolants' kval and urange are
  parameters; the discrete transforms of jnp.fft are modelled by their defining sums. Not modelled: reading image
  files, argument type checks, noise padding (not implemented in the code). Photon shooting is in `Shoot_*`.
* `Shoot_*`: interpolant.py: _shoot_cdf and _shoot of every interpolant; interpolatedimage.py: _InterpolatedImageImpl._shoot, followed by
  Transformation._shoot of the outer object. Random deviates are arguments: lists of uniform deviates in [0,1), the chosen pixels
  and the permutation of the photons. searchsorted is a parameter meeting its specification (`searches`); the fluxes of Lanczos and its
  kernel table are parameters. Means over the pixels are finite weighted sums, means over a deviate are integrals. Not modelled:
  how JAX derives the deviates from its keys, and the convergence of samples to these means.
* `Tree_*`: tree_flatten, tree_unflatten, withGSParams and the constructors' checks of the profiles without components, Transformation, Sum,
  Convolution, Deconvolution, InterpolatedImage with its `_obj`, and of the coordinate systems PixelScale, ShearWCS, JacobianWCS, OffsetWCS,
  OffsetShearWCS, AffineTransform. A leaf is a Python number, a JAX array or any other object. Not modelled: the numbers' meaning, GSFitsWCS,
  the check of maxk_threshold by Moffat, Moffat's conversion of beta to an array.
* `AD_*`: jax.grad as reverse mode over expressions (sharing by Let, jnp.where, stop_gradient, functions with their own gradient) over reals with
  inf and nan (zero without sign), and as expressions the formulas of gaussian.py, exponential.py, moffat.py (real space), spergel.py, box.py,
  safe_sqrt, one pixel of draw_by_xValue with an Exponential, the conversions of Shear and JacobianWCS._minScale. The rules of the JAX primitives
  are taken from its documentation; jnp.linalg.inv and slogdet of 2x2 matrices are the cofactor formulas. The theorems tie the expressions to the
  functions of Size_Model and Shear_Model.
* `FITS_*`: fitswcs.py: GSFitsWCS: reading of headers (type, matrix, units, SIP, TPV, the TNX surfaces), writing, _uv, _radec, _xy with
  the Newton inversion, _local, shifting of the origin; TanWCS; the linear branch of FitsWCS. A header is a function from keys to
  numbers, integers and text. The Newton iteration in reals: where the determinant vanishes the floats are nan and the check
  does not raise, so the theorems on inversion assume it does not vanish. Not modelled: files, the text of the TNX keywords (the
  numbers in it are), the order checks there, FittedSIPWCS (not in the code), the choice between WCS classes, color, tags.
* `Quad_*`: integ.py (int1d; quadax.quadgk is a variable) and core/integrate.py (abs_weights with its transform as a cosine sum, ClenshawCurtisQuad,
  quad_integral for one pair of limits; the reshaping for arrays of limits is not modelled).
* `Bes_*` (with `Poly_*`, a positivity check for polynomials): bessel.py: si, kv with its gradient, j0, for one argument (the broadcasting over
  arrays is not modelled). Constants are the decimals of the source and floats are reals, so the bounds are about the formulas,
  without rounding. Olver's expansion (orders from 50 on) is a variable. The loops of Temme's series and of the continued
  fraction are modelled with their stopping rule. The polynomial checks run in the virtual machine under coqc and by ordinary conversion
  under coqchk. Beyond 8 the error of j0 times sqrt x solves an inhomogeneous Bessel equation (`Bes_J*`); its energy starts at 8 from the
  values of the series and grows by the integral of the defect.
* `Call_*`: gsobject.py:533-819 (_determine_wcs, drawImage) and 987-1085 (drawKImage) with image.py:411-429 (scale), as functions from the call to
  the image object afterwards and the result or exception. The drawing (drawPhot, drawReal, drawFFT, _drawKImage) and building the profile are
  parameters; warnings, surface_ops and the unused dx of a given k image are left out.
* `Cel_*`: wcs.py:653-830 (CelestialWCS: xyToradec, radecToxy, _shiftOrigin, _local, _makeSkyImage, _posToWorld, _posToImage) over any origin,
  _radec, _xy and _newOrigin, instantiated with GSFitsWCS (`fits_ops`). x and y are single numbers; color is left out.
* `Size_*`: gaussian.py, exponential.py, moffat.py, spergel.py, box.py, deltafunction.py: constructors, sizes, xValue, kValue, maxk,
  stepk, max_sb, flux fractions, the tables and radii used in shooting, jnp.interp and jnp.linspace. Floats are reals, so the
  constants of the code (1 / (2 pi) and the half-light factors) are off by about 10^-16 and the theorems carry that bound.
  `kv` and `lgamma` are functions given from outside: theorems on the Spergel profile assume of them the derivative law and the
  limits of the modified Bessel functions (`bessel_pair`), or the closed forms at half-integer orders (`half_orders`; an instance
  is exhibited). Half of the flux within a circle is an integral over radii; the profiles are shown to depend on the radius only.
  `jnp.searchsorted` is any search with its defining property. Not modelled here: bessel.py (`Bes_*`), `Moffat._maxk` and
  `Moffat._kValue` (`MoffK_*`), inf and nan, drawing methods, gradients. `Num_Consts` bounds pi, ln and
  sqrt by rational arithmetic.
* `DrawF_*`: gsobject.py `drawFFT` = `drawFFT_makeKImage` and `drawFFT_finish` (from `FFT_Model`, `Wrap_Model`) with the k image filled by
  `draw_by_kValue` (core/draw.py) and irfft2/fftshift/ifftshift written out (`II_Model`). kValue of a Gaussian and of its convolution with
  Pixel(scale) (maxk, stepk as in convolve.py). Simplifications: floats are reals and complex numbers, exact transforms; the image has a
  PixelScale and the profile is already in image coordinates; storing or adding to the target image is in `Call_Model`. Not covered:
  profiles other than the Gaussian and the Exponential have C137 and C139 but no error bound against the surface brightness. C139 compares drawings on
  one grid (same maxk and stepk); Transformation and Sum may choose another grid for a moved or added profile.
* `DrawE_*`: exponential.py `_kValue`, `_maxk`, `_stepk` (from `Size_Model`) drawn by the same `drawFFT`. The bound on the waves left out
  falls like 1/maxk because of the cusp at the centre, so that the default thresholds give 3/10 of the peak; it is an upper bound, the size
  of the actual error is not settled. The bound with the pixel takes no advantage of the pixel's own decay.
* `SpeH_*`: Spergel profiles (model of `Size_Model`) of index n + 1/2: flux beyond any radius in closed form, half-light radius at 3/2, 5/2, 7/2.
  kv and lgamma are any functions with the closed forms at half-integers (`half_integers`, with an instance).
* `VecV_*`: kValue and xValue at one-dimensional arrays of positions (kx and ky of one length);
  arrays of different shapes are not modelled. That a leaf computes entry by entry is read off its formula, not proved.
* `Conv_*`: to_galsim and from_galsim. GalSim is not in the repository; what its constructors do with their arguments (they keep them, and
  raise outside their range) is a contract written at the head of `Conv_Model.v`, and part of the trusted base of C142. Byte order and dtype
  conversion of arrays, and what GalSim does with an array and undefined bounds, are left out.
* `Ops_*`: the operators of GSObject on the trees of `Prof_Model.v`. For C144 a NumPy array is the address of its one element and a profile a leaf
  with a flux, scaled any number of times; that `*=` on a NumPy array works in place and on other numbers binds a new value is Python's and NumPy's rule.
* `Str_*`: `Transformation.__str__` and `_str_from_jac` (transform.py:198-244) as the list of calls they name, each with its numbers; the calls are read with
  `path` and `effect` of `Prof_Spec.v`. Not modelled: how numbers, angles and shears are written out, the text of the original, singular matrices
  (the decomposition divides by zero for the zero matrix) and traced entries (the comparisons refuse them).
* `WHash_*`: `__eq__`, `__repr__`, `__hash__` of the uniform WCS classes and CelestialCoord, with numbers as Python ints and floats (sign bit and real magnitude). A text
  is a list of pieces and the hash any function of it. Not modelled: NaN, NumPy scalars (their text depends on the version of NumPy), arrays as parameters, GSFitsWCS.
* `Repr_*`: `__repr__` of Transformation, Sum, Convolution and Deconvolution (transform.py:184-197, sum.py:103-108, convolve.py:184-193, 423-428) as the call it shows, and the
  evaluation of that call by the constructors of `Prof_Model.v`. Not modelled: how numbers, arrays, gsparams and simple profiles are written out and read back.
* `PEq_*`: `__eq__` and `__hash__` of the simple profiles, Transformation, Sum, Convolution and Deconvolution, with numbers as Python numbers or JAX scalars of one precision;
  a Python number compared with a JAX scalar is rounded to its precision (JAX's rule for weak types). Not modelled: nan, infinities, JAX scalars of several precisions,
  integer dtypes, parameters that are arrays; the hash of GSParams is any function of their values (C83). InterpolatedImage is in C105.
* `AOrd_*`: the comparisons and hashes of Angle and AngleUnit (angle.py:114-121, 255-290) over the numbers of `PEq_Model.v`. Not modelled: nan, arrays of angles.
* `ShArg_*`: the unnamed argument of Shear, its .shear and repr (shear.py:38-43, 195-197, 302-303) over `Shear_Model.v`. Not modelled: arrays of shears, nan, the digits of the text.
* `SpC_*`: fsmallz_nu, fz_nu and Spergel._xValue as in `Size_Model.v` (spergel.py:22-124, 414-417), within 1e-10 scale radii. kv and lgamma are parameters. Not covered: nu = 2 (its expansion has a
  jump of 1e-159 at z = 1e-40), nu < 0, nu above 1.99 other than 3 and 4, and the centre itself.
* `MoffK_*`: moffat.py: `_maxk` with the 17 x 21 coefficients of the fit (exact decimals, units of 10^-21), `_knorm`, `_knorm_bis`,
  `_Knu`, `_kValue_untrunc_func`, `_kValue_untrunc_asymp_func`, `_kValue_untrunc_interp_coeffs`, `_kValue`, over `kv` of `Bes_Model` and the
  Akima table of `Akima_Model`. `lgamma` and Olver's expansion in `kv` are given from outside; `gamma_half` (the values of lgamma at half
  integers; an instance is exhibited) is the only hypothesis on them. Divisions give inf and nan in `slp` and the tail only. The spec
  is the transform for beta = n + 3/2 in closed form (reverse Bessel polynomials). The fit is bounded over its whole range
  by interval arithmetic on integers with a subdivision certificate checked in the kernel. Not modelled: overflow of
  float32 or float64 in 2^beta, Gamma(beta-1) and (k r0)^(beta-1), which begins near beta = 100 to 170; positions are single numbers.

### Assumptions of each theorem

<!-- assumptions -->
* no axioms (closed under the global context):
  `C01_and_is_set_intersection`, `C01_and_defined_iff_common_point`, `C01_and_laws`, `C01_includes_meaning`, `C02_union_is_least_upper_bound`, `C02_undefined_is_neutral`, `C02_accumulated_positions`, `C03_conversion_keeps_undefined_BoundsI`, `C04_equal_defined_bounds_hash_equal`, `C04_equal_bounds_hash_equal_refuted`, `C05_pytree_roundtrip_BoundsI`, `C06_area_counts_points`, `C06_numpyShape`, `C06_center`, `C06_withBorder`, `C06_withBorder_negative`, `C06_shift`, `C06_origin`, `C06_python_bounds_wellformed`, `C06_jax_scalar_bounds_wellformed_refuted`, `C16_block_reductions_agree`, `C16_block_reduction_is_block_sum`, `C07_image_refines_pixel_map`, `C07_raising_operation_changes_nothing`, `C07_set_then_get`, `C08_subimage_exposes_requested_pixels`, `C08_uncontained_bounds_raise`, `C08_write_back_is_identity`, `C08_jax_bounds_outside_raise_refuted`, `C09_const_image_checked_methods`, `C09_const_image_array_never_changes`, `C09_const_image_never_modified_refuted`, `C10_shift_moves_every_pixel`, `C10_shifts_compose`, `C10_setOrigin_setCenter_reach_target`, `C11_pixel_permutations`, `C11_dihedral_group_laws`, `C11_result_is_usable_refuted`, `C12_rejected_wrap_changes_nothing_refuted`, `C12_hermitian_precondition_atomic_partial`, `C13_roundtrip_when_added_flux_present`, `C13_roundtrip_any_attributes_refuted`, `C13_flatten_fails_without_const_flag_refuted`, `C14_wrap_sums_congruent_pixels`, `C14_wrap_preserves_total`, `C15_hermitian_x_is_full_plane_wrap`, `C15_hermitian_y_is_full_plane_wrap`, `C15_asymmetric_rows_refuted`, `C75_binary_operators_are_pixelwise`, `C75_inplace_agrees_with_binary`, `C75_shape_mismatch_raises`, `C19_drawing_restores_bounds_and_wcs`, `C29_pytree_round_trip`, `C32_text_round_trip`, `C32_serialize_restores`, `C46_with_params_changes_only_named`, `C46_unknown_parameter_rejected`, `C46_check_takes_first_given`, `C57_names`, `C72_keys_distinguish`, `C95_always_TypeError_refuted`, `C99_case_insensitive`, `C99_names`, `C99_lanczos`, `C99_others_rejected`, `C99_order_refuted`, `C127_sinc_refused`, `C129_wcs`.
* `ClassicalDedekindReals.sig_forall_dec`:
  `C26_sizes_must_agree`, `C89_construction`, `C73_horner2d_errors`, `C112_sip_pairs`, `C130_wcs`, `C144_nothing_changes`.
* `ClassicalDedekindReals.sig_forall_dec`, `FunctionalExtensionality.functional_extensionality_dep`:
  `C01_and_is_set_intersection_BoundsD`, `C01_includes_meaning_BoundsD`, `C02_union_is_least_upper_bound_BoundsD`, `C03_conversion_keeps_region`, `C03_conversion_keeps_region_BoundsD`, `C03_conversion_keeps_definedness_refuted`, `C04_equal_defined_bounds_hash_equal_BoundsD`, `C05_pytree_roundtrip_BoundsD`, `C19_incompatible_iff_conflicting`, `C19_image_as_requested`, `C20_profile_drawn_where_asked`, `C20_wcs_linearised_there`, `C20_undefined_image_with_center_refuted`, `C21_float_sum_drawn_exactly`, `C21_integer_sum_within_one_partial`, `C21_integer_image_refuted`, `C22_draw_loop_shoots_every_photon`, `C22_fixed_size_small_maxN_refuted`, `C23_shot_photons_carry_the_flux`, `C23_fixed_size_flux_partial`, `C23_fixed_size_refuted`, `C23_sum_ignores_count_refuted`, `C24_masked_bookkeeping`, `C24_assigned_flux_is_read_back`, `C24_scaling_is_exact`, `C24_number_kept`, `C24_nothing_kept_refuted`, `C25_binning_conserves_flux`, `C25_order_does_not_matter`, `C25_undefined_bounds_raise`, `C25_integer_image_partial`, `C25_integer_image_refuted`, `C26_convolution_pairs_photons`, `C26_total_flux_is_product`, `C26_commutes`, `C27_photons_reproduce_image`, `C27_binned_back`, `C27_bad_max_flux_raises`, `C28_given_count_is_used`, `C28_computed_count_nonneg_partial`, `C28_negative_flux_refuted`, `C29_file_round_trip_partial`, `C29_file_inflates_masked_flux_refuted`, `C78_extra_noise_scales_flux_refuted`, `C79_copied_photons`, `C79_without_flux_refuted`, `C80_sum_photons_come_from_components`, `C31_same_seed_same_stream`, `C34_permute`, `C34_permute_nothing`, `C37_noise_round_trip_partial`, `C37_deviate_noise_refuted`, `C37_base_noise_refuted`, `C46_combination_is_strictest`, `C46_order_and_nesting_irrelevant`, `C46_combine_idempotent`, `C83_equality`, `C83_equal_hash_partial`, `C83_equal_hash_refuted`, `C83_repr_distinguishes`, `C42_difference_is_flux`, `C42_non_negative_partial`, `C43_sum_nesting`, `C44_convolution_decision`, `C44_bad_arguments`, `C44_default_raises_refuted`, `C86_keywords_ignored_refuted`, `C88_route`, `C55_finite_differences_exact`, `C63_units`, `C64_fields`, `C64_without_separators_unreadable`, `C64_degrees_and_minutes`, `C64_degrees_alone`, `C89_dimensions`, `C89_vector_space`, `C89_order`, `C89_equality`, `C71_bracket_partial`, `C71_exact_hit_refuted`, `C71_wrong_limit`, `C72_equality_partial`, `C72_equivalence`, `C72_hash`, `C72_reflexive_refuted`, `C72_symmetric_refuted`, `C72_never_raises_refuted`, `C73_horner`, `C73_horner_other`, `C73_horner2d`, `C77_moments`, `C77_shift`, `C77_origin`, `C77_scale`, `C77_transpose`, `C77_mirror`, `C77_shape`, `C76_add`, `C76_sub`, `C76_neg`, `C76_mul`, `C76_rejects`, `C76_only_positions`, `C76_vector_space`, `C76_div`, `C76_equality`, `C76_round`, `C76_construction`, `C76_only_these_forms`, `C76_integers_only`, `C95_forms_agree`, `C95_keyword_order`, `C95_others`, `C95_result`, `C95_errors`, `C95_refusals`, `C70_through_data`, `C70_zero_outside`, `C70_lines`, `C70_lookups_agree`, `C70_host_and_device_agree`, `C94_affine_partial`, `C94_add_line`, `C94_scale_refuted`, `C94_mirror_partial`, `C94_mirror_refuted`, `C65_reproduces`, `C68_half_plane`, `C100_positive_negative`, `C61_tpv_partial`, `C61_refuted`, `C61_zero_refuted`, `C62_matrix_partial`, `C62_pc_lost_refuted`, `C62_pc_alone_refuted`, `C110_tnx_partial`, `C110_polynomial_refuted`, `C112_sip`, `C112_radial_refused`, `C47_gaussian_read_back`, `C47_exponential_read_back`, `C47_spergel_read_back`, `C114_delta`, `C115_box`, `C117_integral`, `C117_failure`, `C117_limits`, `C117_same_side_refuted`, `C118_linear`, `C125_choice`, `C125_refused`, `C125_positive`, `C125_again`, `C124_returns`, `C124_refused`, `C124_arguments`, `C124_failure_states`, `C129_profiles`, `C129_exact`, `C129_structure_refuted`, `C130_which_leaves`, `C130_any_leaves`, `C130_moffat_gradient_refuted`, `C130_image_gradient_refuted`, `C130_sentinel_refuted`, `C141_xvalues_entrywise`, `C141_delta_refuted`, `C142_positions_bounds`, `C142_bounds_points`, `C142_bounds_refuted`, `C143_refused`, `C143_products_refuted`, `C144_flux`, `C144_arrays_refuted`, `C146_equality`, `C146_text`, `C146_hash_partial`, `C146_int_refuted`, `C146_inverse_refuted`, `C147_roundtrip_partial`, `C147_settles`, `C147_merged_refuted`, `C148_equality`, `C148_hash_partial`, `C148_traced`, `C148_mixed_refuted`, `C149_equality_partial`, `C149_order_partial`, `C149_strict`, `C149_close_refuted`.
* `ClassicalDedekindReals.sig_forall_dec`, `ClassicalDedekindReals.sig_not_dec`, `FunctionalExtensionality.functional_extensionality_dep`:
  `C18_good_image_size`, `C30_generate_is_calls`, `C30_stream_values`, `C30_any_history`, `C31_sharing_is_linking`, `C31_draws_move_the_linked_deviates`, `C31_duplicate`, `C31_equal_states_equal_futures`, `C33_noise_advances_generator_partial`, `C33_successive_noise_is_fresh_partial`, `C33_noise_is_linked`, `C33_ccd_noise_refuted`, `C33_ccd_with_variance_refuted`, `C35_with_variance`, `C35_scaled_variance`, `C35_unsupported_raise`, `C36_snr_preserving_flux_partial`, `C36_snr_scaling_flux_partial`, `C36_integer_image_refuted`, `C36_integer_scaling_refuted`, `C82_photon_noise_sky`, `C49_addition_stays_in_disc`, `C49_negative_is_inverse`, `C49_subtraction`, `C49_zero_is_neutral`, `C49_matrix`, `C38_operations_in_sequence`, `C40_fourier_drawing_is_evaluation`, `C41_flux_is_amplitude_at_zero`, `C41_sum_adds`, `C41_convolution_multiplies`, `C41_with_flux`, `C43_sum_order`, `C44_order_irrelevant`, `C45_deconvolution_inverts`, `C45_never_amplifies`, `C45_twice`, `C45_drawing_partial`, `C45_drawing_refuted`, `C84_convolution_nesting`, `C85_axisymmetric_is_sound`, `C86_uniform_gsparams`, `C86_with_gsparams`, `C87_maxk_bounds_amplitude`, `C87_stepk_covers`, `C51_maps_are_inverse`, `C51_inverse_swaps`, `C51_world_position`, `C52_origin_moves_with_image`, `C52_world_origin_set`, `C52_local_part_unchanged`, `C52_sequences_add`, `C53_pixel_area`, `C53_linear_scales_are_singular_values`, `C53_linear_scales_of_other_classes`, `C54_flux_conserved`, `C54_surface_brightness`, `C54_profile_round_trip`, `C54_sheared_round_profile`, `C55_jacobian_gives_differences`, `C55_affine_is_the_same_map`, `C55_compatible_iff_same_linear_part`, `C55_sky_image`, `C56_header_round_trip_partial`, `C56_shear_headers_refuted`, `C10_world_positions_kept`, `C10_world_positions_kept_by_sequences`, `C10_world_positions_kept_by_setOrigin_setCenter`, `C63_wrap`, `C63_wrap_is_the_only_one`, `C63_wrap_idempotent`, `C63_wrap_keeps_sin_cos`, `C63_unit_ratios`, `C64_dms_round_trip`, `C64_hms_round_trip`, `C63_unit_names`, `C63_other_names_refused`, `C59_obliquity`, `C90_at_centre`, `C71_root_partial`, `C77_g2e`, `C76_shear`, `C65_cardinal`, `C65_even`, `C65_range`, `C65_delta_refuted`, `C66_closed_forms`, `C66_dc_at_integers`, `C67_interpolates`, `C67_pixel_centers`, `C67_linear`, `C67_local`, `C67_nearest_partial`, `C68_any_window`, `C68_grid`, `C81_transform`, `C81_round_trip`, `C100_flux`, `C62_units`, `C62_default_units`, `C62_projection_named`, `C107_plain`, `C107_sip`, `C107_stale_refuted`, `C109_linear_partial`, `C109_simplify`, `C109_pc_refuted`, `C109_cd_refuted`, `C111_axes_partial`, `C111_tpv_refuted`, `C112_tpv_partial`, `C112_default_refuted`, `C48_stepk_box`, `C115_angle`, `C117_whole_line`, `C118_orders`, `C118_monotone`, `C118_error_weights_partial`, `C120_odd`, `C121_even`, `C124_const_refuted`, `C126_returns`, `C126_automatic`, `C126_failure`, `C126_failure_refuted`, `C122_units_back`, `C122_round_trip`, `C122_refused`, `C123_local`, `C123_integer`, `C127_photons`, `C127_simple`, `C141_kvalues_entrywise`, `C141_convolution_refuted`, `C141_mixed_sum_refuted`, `C143_expressions`, `C143_laws`.
* `ClassicalDedekindReals.sig_forall_dec`, `ClassicalDedekindReals.sig_not_dec`, `Classical_Prop.classic`, `FunctionalExtensionality.functional_extensionality_dep`:
  `C17_smallest_good_size_to_99999`, `C17_smallest_with_slop_partial`, `C17_at_least_n_refuted`, `C18_fft_grid_covers`, `C18_too_large_raises`, `C18_draw_fft_region_and_aliasing`, `C18_fixed_size_geometry_refuted`, `C18_uncentred_image_refuted`, `C49_composition`, `C50_g_round_trip`, `C50_e_round_trip`, `C50_eta_round_trip`, `C50_polar_round_trip`, `C50_attributes_agree`, `C50_out_of_range_raises`, `C50_malformed_calls_raise`, `C50_disc_not_enforced_refuted`, `C39_drawing_is_evaluation`, `C42_negative_flux_refuted`, `C43_unpropagated_refuted`, `C86_mixed_refuted`, `C88_analytic_is_drawable_partial`, `C88_single_convolution_refuted`, `C53_decomposition`, `C54_shear_moments`, `C54_shear_round_trip_partial`, `C57_plane_sky_plane`, `C57_sky_plane_sky`, `C57_same_coordinates`, `C57_geometry`, `C57_gnomonic_behind`, `C57_unknown_projection`, `C58_is_the_angle`, `C58_metric`, `C58_formulas_agree`, `C59_galactic_is_a_rotation`, `C59_galactic_inverse`, `C59_ecliptic_is_a_rotation`, `C59_ecliptic_inverse`, `C59_precession_is_a_rotation`, `C59_precession_there_and_back`, `C59_distances_kept`, `C59_galactic_keeps_distances`, `C59_from_xyz`, `C59_get_xyz_back`, `C59_xyz_to_radec`, `C90_jacobian`, `C91_great_circle`, `C91_great_circle_distance`, `C91_angle_between`, `C91_law_of_cosines`, `C92_area_partial`, `C92_area_refuted`, `C93_epoch_ignored_refuted`, `C70_smooth`, `C70_slopes`, `C94_last_slope_refuted`, `C65_smooth`, `C96_transforms`, `C96_sinc`, `C96_lanczos`, `C97_unit_integrals`, `C97_sinc`, `C97_quintic_partial`, `C97_quintic_refuted`, `C97_fluxes`, `C98_within_accuracy`, `C98_cubic_quintic_partial`, `C98_cubic_refuted`, `C67_profile`, `C67_profile_nominal`, `C67_nearest_refuted`, `C69_smallest`, `C69_square_partial`, `C69_quadrature`, `C69_no_search`, `C69_elongated_refuted`, `C69_number_refuted`, `C100_flux_in_k`, `C101_padding`, `C101_size`, `C101_no_recenter_refuted`, `C102_grid`, `C102_between`, `C102_beyond`, `C103_rings`, `C103_no_search`, `C103_positive_refuted`, `C104_isotropic_partial`, `C104_forced`, `C104_stretched_refuted`, `C105_same_wcs_partial`, `C105_wcs_refuted`, `C106_no_offset_partial`, `C106_error`, `C106_even_refuted`, `C60_tan_partial`, `C60_tan_value`, `C60_refuted`, `C62_shift`, `C62_shift_back`, `C62_pixel_sky_pixel`, `C62_sky_pixel_sky`, `C62_inversion`, `C62_inversion_linear`, `C107_tpv_partial`, `C108_local`, `C47_one_size`, `C47_moffat_read_back`, `C47_half_light_gaussian`, `C47_half_light_exponential`, `C47_half_light_moffat`, `C47_half_light_spergel_partial`, `C47_half_peak_gaussian`, `C47_half_peak_moffat`, `C48_maxk_gaussian`, `C48_maxk_exponential`, `C48_maxk_spergel`, `C48_maxk_box`, `C48_stepk_gaussian`, `C48_stepk_moffat`, `C48_stepk_spergel_partial`, `C48_stepk_exponential_partial`, `C48_stepk_exponential_by_radius`, `C48_stepk_exponential_refuted`, `C74_table_positive`, `C74_table_negative_refuted`, `C74_photons_negative_refuted`, `C113_total_flux`, `C113_total_flux_moffat`, `C113_flux_spergel`, `C113_centre`, `C114_box`, `C114_gaussian`, `C114_exponential`, `C115_moffat`, `C115_exponential`, `C115_spergel_partial`, `C116_spergel_is_exponential`, `C117_far_limit_refuted`, `C118_exact`, `C118_constants`, `C118_error`, `C118_error_of_polynomials`, `C119_bessel_equation`, `C119_half_orders`, `C119_close`, `C119_edges`, `C119_orders_partial`, `C119_miller`, `C119_small_orders`, `C119_gradient`, `C119_gradient_close`, `C119_order_gradient_refuted`, `C120_close`, `C120_small`, `C121_close`, `C121_far`, `C124_failure_refuted`, `C124_retry_refuted`, `C122_units`, `C122_shift`, `C123_sky`, `C123_fits`, `C123_jump_refuted`, `C123_pole_refuted`, `C123_integer_refuted`, `C127_positions`, `C127_table`, `C127_mean_flux`, `C127_nearest_draws`, `C127_linear_draws`, `C128_mean`, `C128_mean_nonnegative`, `C128_total`, `C128_negative_pixels_refuted`, `C131_gradient`, `C131_gaussian`, `C131_exponential`, `C131_moffat`, `C131_spergel_k`, `C131_box`, `C131_sheared_exponential`, `C131_shear`, `C131_spergel_nu_refuted`, `C132_safe_sqrt`, `C132_exponential_centre`, `C132_sheared_exponential_refuted`, `C132_spergel_refuted`, `C132_zero_shear_refuted`, `C132_min_scale_refuted`, `C133_flux`, `C133_circular`, `C133_nodes`, `C133_half_integer`, `C133_continuous`, `C133_zero_flux_refuted`, `C134_accuracy`, `C134_moffat`, `C135_scale`, `C135_no_pole`, `C135_range`, `C135_threshold_partial`, `C135_large_beta_refuted`, `C135_small_threshold_refuted`, `C136_exact`, `C136_bounds`, `C136_bounded_refuted`, `C136_decreasing_refuted`, `C137_fourier_sum`, `C137_folding`, `C138_gaussian_values`, `C138_gaussian_pixels`, `C138_default_values`, `C138_default_pixels`, `C139_linear`, `C139_moved`, `C139_half_turn`, `C139_total`, `C139_total_aliased`, `C139_total_pixel`, `C137_integer_images`, `C140_exponential_values`, `C140_exponential_pixels`, `C140_default_values`, `C140_converges`, `C141_moved_convolution_refuted`, `C47_flux_beyond_half_integers`, `C47_half_light_half_integers`, `C47_half_integer_bessel`, `C142_values`, `C142_wcs`, `C142_wcs_refused`, `C142_wcs_own_refuted`, `C142_images`, `C142_image_attributes_refuted`, `C145_text`, `C145_history`, `C145_single`, `C145_exact`, `C150_rebuild_partial`, `C150_text`, `C150_real_refused`, `C150_axis_refuted`, `C151_integer_partial`, `C151_rises_refuted`, `C151_sign_lost`.
<!-- end assumptions -->

## Findings

Each is proved as a theorem `…_refuted` (or a guard in a `_partial` theorem) of the property named.

* **F1** (C03) `BoundsD(BoundsD())` and `BoundsI(BoundsD())` turn undefined bounds into defined ones.
* **F2** (C04) Equal undefined bounds can hash differently.
* **F3** (C06) BoundsI made from JAX scalars is defined even with negative width.
* **F4** (C08) Sub-image bounds that are JAX values are clamped instead of checked.
* **F5** (C09) In-place operators, the array setter and wrap ignore isconst.
* **F6** (C11) Images made through `_Image(...)` (transposes, flips, ...) lack `_is_const`, so later calls raise AttributeError.
* **F7** (C12) `_wrap` changes the image before subImage raises.
* **F8** (C13) Image/photon flatten and unflatten do not round-trip `added_flux`.
* **F9** (C15) The hermitian wrap assumes rows symmetric about zero.
* **F10** (C17) `good_fft_size(131073)` is 131072, smaller than requested.
* **F11** (C18) minimum_fft_size equal to maximum_fft_size bypasses the size check; odd sizes give an asymmetric image.
* **F12** (C18) drawFFT on an image not centred on the origin misses the last row/column and raises GalSimBoundsError.
* **F13** (C20) An undefined image with `center` is misplaced.
* **F14** (C21) A Sum drawn on an integer image rounds per component, so the result depends on order.
* **F15** (C21) drawReal does not preserve the image's dtype.
* **F16** (C23) Fixed-size shooting gives total flux F*N/S; Sum keeps all S slots.
* **F17** (C22) drawPhot with maxN smaller than the slot count gives F*maxN/S.
* **F18** (C24) No kept photons gives NaN or loses assignments.
* **F19** (C25) addTo on an integer image rounds the pixels but not the returned flux.
* **F20** (C28) Negative flux with poisson_flux=False gives a negative photon count.
* **F21** (C29) A photon file round trip inflates the visible flux by N/kept.
* **F22** (C78) max_extra_noise multiplies the flux by 1+extra/|max_sb|.
* **F23** (C79) copyFrom with do_flux=False changes other photons' fluxes.
* **F24** (C33) CCDNoise.applyTo loses generator updates and uses the same subkeys for Poisson and read noise.
* **F25** (C33) CCDNoise.withVariance gives an unlinked generator.
* **F26** (C37) DeviateNoise.tree_unflatten raises TypeError.
* **F27** (C37) BaseNoise has no `__repr__`, so noise is never equal after a round trip.
* **F28** (C36) addNoiseSNR squares integer pixels in the image dtype and rounds the scaled image.
* **F29** (C83) Equal GSParams (int versus float field) hash differently.
* **F30** (C50) Shear accepts |g|=1 (its matrix divides by zero); a positional complex is not checked.
* **F31** (C42) Negative flux or flux ratio gives negative positive_flux.
* **F32** (C43) Explicit gsparams of an inner Sum with propagate_gsparams=False are lost when it is taken apart.
* **F33** (C44) Convolve of one or two hard-edged analytic profiles, and so drawImage of any hard-edged analytic profile (Box, Pixel, a Sum with one) with the default method, raises NotImplementedError; method 'real_space' always raises for analytic profiles.
* **F34** (C45) Deconvolution: drawn values are 0 beyond maxk and lose the phase exactly at the threshold, unlike kValue; for negative flux the threshold never applies.
* **F35** (C86) `withGSParams(g, **kw)` ignores (even misspelt) keywords when g equals the present gsparams.
* **F36** (C86) Transforming a non-propagating Transformation with propagation leaves the component with its old gsparams.
* **F37** (C88) `Convolve([p])` reports is_analytic_x but xValue and drawing in real space raise NotImplementedError.
* **F38** (C56) The header of a `ShearWCS` or `OffsetShearWCS` cannot be read back: the classes define `_writeHeader` but no `_readHeader`; `readFromFitsHeader` raises AttributeError.
* **F39** (C64) `_parse_dms` takes any text in front of the first digit other than exactly "-" as a plus sign: "--12:30:00" reads as +12.5, not as an error (Example `C64_prefixes`).
* **F40** (C92) `CelestialCoord.area` uses arctan of |F / (…)|: for a triangle larger than a quarter of the sphere (excess E > pi) it returns 2 pi - E (`C92_area_refuted`).
* **F41** (C93) `galactic` and `from_galactic` accept `epoch` and ignore it: coordinates at another epoch are converted as if they were J2000 (`C93_epoch_ignored_refuted`).
* **F42** (C57) the default gnomonic projection accepts points more than 90 degrees away and gives them the place of their antipode (`C57_gnomonic_behind`), so project is not injective on the sky.
* **F43** (C71) `bisect_for_root` tests `fmid * fhigh < 0`. When a midpoint is an exact root the product is 0, the root becomes the right end, every later product is again 0 or positive, and the search shrinks towards the left end: the root of f(x) = x on [-1, 1] is given as -1 + 2/2^n (`C71_exact_hit_refuted`, `C71_wrong_limit`).
* **F44** (C72) `is_equal_with_arrays` compares a number with an array of one or more dimensions by `==`: inside a list, `[1.0]` against `[array([1.0])]` is equal but not the other way round (`C72_symmetric_refuted`), and against a longer array it raises ValueError (`C72_never_raises_refuted`). nan differs from itself (`C72_reflexive_refuted`).
* **F45** (C95) A call that leaves out a required further argument, such as `im.setValue(1, 2)`, raises KeyError, not TypeError: parse_pos_args pops the missing names from kwargs (`C95_always_TypeError_refuted`; GalSim does the same).
* **F46** (C70, C94) akima_interp_coeffs takes the slopes at the last two points one chord too early: with n points the chords are m[0..n-2], and the last slope is m[n-3], not m[n-2]. The interpolant leaves the last point with the slope of the previous segment, and reading a table backwards does not mirror it (`C70_slopes`, `C94_mirror_refuted`, `C94_last_slope_refuted`).
* **F47** (C94) The weights are compared with the absolute number 1e-12: tables of small ordinates get the mean of the neighbouring chords instead of Akima's slope, so the interpolant is not proportional to the data (`C94_scale_refuted`).
* **F48** (C65) Delta is a box of width kvalue_accuracy and height 1/kvalue_accuracy: it is not one at 0, and its xrange of 0 does not contain its support (`C65_delta_refuted`; GalSim does the same).
* **F49** (C97) The unit integrals stored for Quintic are numerical and carry only seven to eight digits: the first is off by 1.6e-8 (10051/11520 is exact), and their sum differs from one by 1.5e-8 (`C97_quintic_refuted`, `C97_quintic_partial`).
* **F50** (C98) urange of Cubic is solved from the leading term of the transform at large u. The next term makes the transform exceed kvalue_accuracy beyond krange for arbitrarily small accuracies (`C98_cubic_refuted`); the excess is at most 3/(k/2)^4 (`C98_cubic_quintic_partial`).
* **F51** (C99) from_name("lanczos0") and from_name("lanczos31") raise KeyError from the table lookup in Lanczos.__init__, not GalSimValueError (`C99_order_refuted`).
* **F52** (C67) With the Nearest interpolant xValue looks only at the pixel at the integer part of the position (ixrange // 2 = 0), so where the fractional part exceeds 1/2 the value is 0 instead of the next pixel's value (`C67_nearest_refuted`).
* **F53** (C69) _calculate_size_containing_flux examines squares only up to the smaller side of the image; for elongated images the search fails and argmax returns the first entry, the central pixel (`C69_elongated_refuted`).
* **F54** (C69) With a number for calculate_stepk the image is cut to that radius but compared with thresh times the flux of the whole image; again the search may fail and give radius 1/2 although the cut image is not concentrated there (`C69_number_refuted`).
* **F55** (C101) With _recenter_image=False the original image is pasted at its own bounds over an image that already holds it in the centre: pixels are counted twice, or GalSimBoundsError is raised (`C101_no_recenter_refuted`).
* **F56** (C103) If no ring beyond the centre is above the threshold maxk is 0 (`C103_positive_refuted`: a flat 2x2 image with pad_factor 1).
* **F57** (C104) InterpolatedImage divides maxk by the largest and stepk by the smallest linear scale of the wcs; Transformation (C87) does the opposite. For every anisotropic wcs both limits are too small/too large (`C104_stretched_refuted`).
* **F58** (C105) InterpolatedImage.__eq__ does not compare the wcs (nor the Jacobian): the same image with a turned wcs compares equal but differs (`C105_wcs_refuted`); __hash__ does include the wcs, so such equal objects have different hashes.
* **F59** (C106) _centroid takes no account of the offset: for even-sized images with use_true_center=True (the default) or a given offset it is wrong by the offset (`C106_error`, `C106_even_refuted`).
* **F60** (C60) TanWCS flips the sign of u in the CD matrix but not in the world origin used for CRPIX: with a world origin whose u is not zero every pixel is moved by twice that amount (`C60_tan_value`, `C60_refuted`).
* **F61** (C61) _read_tpv takes the order from the place of the last non-zero coefficient as int(sqrt(2 (maxk + 1))) - 1, which is too small when the top row is non-zero only in its first half: x + x^2, y is read back as x, y (`C61_refuted`).
* **F62** (C61) A TPV header whose PV1 (or PV2) coefficients are all zero or absent raises IndexError instead of the identity the convention prescribes (`C61_zero_refuted`).
* **F63** (C62) PC keys are read only if both CDELT1 and PC1_1 are there: PC1_2 alone, or a PC matrix without CDELT, is ignored (`C62_pc_lost_refuted`, `C62_pc_alone_refuted`).
* **F64** (C107) Writing a WCS to a header leaves PV keys that are already there: a TAN system written over a TPV header is read back as a TPV system (`C107_stale_refuted`).
* **F65** (C109) Linear headers: PC keys are ignored, and a CD matrix without CTYPE1 and CDELT1 is ignored and PixelScale(1) returned (`C109_pc_refuted`, `C109_cd_refuted`).
* **F66** (C110) TNX surface type 3 (plain polynomials) falls off the end of _parse_tnx_data, which returns None, and reading fails with a TypeError (`C110_polynomial_refuted`).
* **F67** (C111) When declination is the first axis the rows of CD, CRVAL and CUNIT are exchanged but PV1 and PV2 are not (`C111_tpv_refuted`).
* **F68** (C112) PV1_1 and PV2_1 not given are read as 0; the TPV convention has 1 (`C112_default_refuted`: a header with PV1_2 = 1 and PV2_1 = 1 stands for (x + y, y) and is read as (y, y)).
* **F69** (C48) Exponential._stepk iterates R = -ln(fold) + ln(1 + R) three times from below and stops short: whenever this radius is
  used, more than the folding threshold is outside (`C48_stepk_exponential_refuted`, for all parameters; the excess is bounded by
  `C48_stepk_exponential_partial`). With the default parameters five half-light radii are larger and the bound holds (`C48_ex_default`).
* **F70** (C74) Spergel photons for nu <= 0: the straight line a + b r fitted to the inner disc is integrated as a z^3 / 3 + b z^2 / 2,
  the two coefficients exchanged, and the table is then normalised by its last entry. For nu = -1/2 the table decreases from its second entry on
  (`C74_table_negative_refuted`) and every photon falls within 30 r0 / 9999, where there is less than 0.4% of the flux
  (`C74_photons_negative_refuted`). The refutations take shoot_accuracy = 1 - exp(-1e-5), which differs from the default 1e-5 by 5e-11.
* **F71** (C117) int1d replaces every limit beyond 10^4 in absolute value by infinity: 1/x^2 from 1 to 20000 is answered with the integral to
  infinity, 50 tolerances away (`C117_far_limit_refuted`); with both limits beyond 10^4 on the same side the answer is 0 whatever
  the integrand (`C117_same_side_refuted`).
* **F72** (C118) ClenshawCurtisQuad.init rescales absc and absw to [0, 1] but not errw: the error estimate is twice the difference of the
  two rules (`C118_error_weights_partial`). quad_integral does not use errw.
* **F73** (C119) kv reports 0 as its gradient with respect to the order. The docstring says so; it is not the derivative, so a fit of the
  Spergel index by gradients gets no signal through kv (`C119_order_gradient_refuted`).
* **F74** (C124) drawImage recentres the user's image and sets its wcs to PixelScale(1) before drawing (gsobject.py:774-775; the comment speaks of
  a view, but none is made), so any exception raised while drawing, such as GalSimFFTSizeError, leaves the image moved and with the wrong wcs
  (`C124_failure_refuted`); drawing on it again after catching the exception then uses unit pixels (`C124_retry_refuted`). When scale or wcs is
  given, image.wcs is set to None before the later checks, so a call refused by _setup_image takes the wcs away. Images made with make_const are
  drawn on (`C124_const_refuted`).
* **F75** (C126) drawKImage accepts an image with a ShearWCS, whose scale attribute exists, recentres it, and then fails to set the scale
  (`C126_failure_refuted`).
* **F76** (C123) CelestialWCS._local, used by the classes without a _local of their own, does not look for jumps of the right ascension by a
  full turn as _makeSkyImage does, so its Jacobian is wrong by a factor of order 1/pixel size beside the jump (`C123_jump_refuted`).
* **F77** (C123) At a pole makeSkyImage multiplies by cos(dec) = 0 and gives no sky at all in the pixel with the pole, whose solid angle is an ordinary
  one (`C123_pole_refuted`).
* **F78** (C123) The sky image of a celestial system with an integer dtype is truncated (.astype), that of a EuclideanWCS rounded to the nearest integer
  (`C123_integer_refuted`, `C123_integer`).
* **F79** (C128) Photons of an InterpolatedImage with negative pixels have too little flux. `_InterpolatedImageImpl._shoot` picks a pixel
  a with probability |a|/S, S the sum of the absolute values, and gives it flux sign(a) (pos - neg)/N; pos - neg is the total flux F, where
  pos + neg = S is needed. The mean total is F (F/S). For pixels 2 and -1 the flux is 1 and the mean 1/3 (`C128_ex_negative`). The drawPhot loop
  (core/draw.py:256-261) makes no correction, saying that shoot has already accounted for it.
* **F80** (C130) A Moffat cannot hold its own gradient. `tree_unflatten` calls `Moffat.__init__`, which raises unless beta > 1.1
  (moffat.py:67-78). JAX puts gradients, zeros and placeholders in an object's structure, so `jax.grad` of a function of a Moffat raises
  when the derivative by beta is at most 1.1, `tree_map(zeros_like, ...)` always, and placeholder objects give a TypeError.
* **F81** (C130) The same for InterpolatedImage: its `_obj` is put together by `_InterpolatedImageImpl.__init__`, which raises when the image sums to
  zero (interpolatedimage.py:515-522). Zeros, and gradients that cancel, raise. ShearWCS and OffsetShearWCS reject placeholders, since
  they look at `shear.g1`.
* **F82** (C129) `Convolution.withGSParams` replaces `_obj_list` and leaves `params["obj_list"]` as it was; tree_flatten uses the latter. The
  copy through JAX shows the same object, with another structure, so that `lax.scan` or `lax.cond` with such an object as carry or branch
  results see two different types (`C129_structure_refuted`).
* **F83** (C132) exponential.py:131 takes `jnp.sqrt(pos.x**2 + pos.y**2)`; the gradient of sqrt at 0 is inf, times 0 nan. A pixel at the centre of
  a sheared (or otherwise transformed) Exponential drawn in real space does not depend on the shear, its gradient in the shear is nan:
  `C132_sheared_exponential_refuted`; one such pixel makes the gradient of the whole image nan. core/math.py:safe_sqrt, used by Moffat only, does not have this.
* **F84** (C132) spergel.py:416 evaluates fz_nu(0, nu), with kv(nu, 0) = inf, in a branch not taken: the gradient of the central pixel in the scale
  radius is 0 * inf = nan, also for nu > 0 where the derivative exists, also without a shear: `C132_spergel_refuted`.
* **F85** (C132) shear.py:251-268 divide by abs(g) or abs(eta) in a branch not taken: Shear(eta1=0, eta2=0) and the eta1 of a zero shear have nan gradients
  (the derivatives are 1/2 and 2): `C132_zero_shear_refuted`. Shear(e1=, e2=) is safe.
* **F86** (C131) spergel.py:416 puts nu behind stop_gradient in z^nu K_nu(z) but not in the normalization: the gradient in nu in real space is neither
  the derivative nor zero, and nothing is said about it: `C131_spergel_nu_refuted` gives the difference. (For Moffat's beta in Fourier space the class documents that it is not supported.)
* **F87** (C132) JacobianWCS(s, 0, 0, s).minLinearScale() is s; its gradient in s is nan (wcs.py:1240): `C132_min_scale_refuted`. maxLinearScale has the same square root.
* **F88** (C133) moffat.py:364 divides the last table value by the asymptotic value; both are 0 for flux = 0, so kValue is nan at every k
  beyond maxk and an FFT image that includes such k is all nan: `C133_zero_flux_refuted`.
* **F89** (C135) beta above 100 lies outside the fit of `_maxk` (moffat.py:262) and is accepted: at beta = 1000.5 maxk r0 is 9e-8 and the transform there
  is 1, not the threshold: `C135_large_beta_refuted`.
* **F90** (C135) a maxk_threshold below 1e-12 lies outside the fit and is accepted (above 0.1 it is refused): with 1e-23 and beta = 1.5 the
  transform at maxk exceeds 0.04: `C135_small_threshold_refuted`.
* **F91** (C136) the tail sqrt(pi/2x) e^-x x^(beta-1) (1 + slp/x) grows until x is near beta - 5/2. For beta = 50.5 that is beyond maxk: kValue rises to three
  times its value at maxk with the default threshold, to over 1000 times the flux with threshold 0.1: `C136_decreasing_refuted`, `C136_bounded_refuted`.
* **F92** (C141) Convolution._kValue (convolve.py:298) multiplies with `jnp.prod` without an axis: at an array of positions it returns one number, the
  product over all positions; a moved or rescaled convolution returns an array with that product in every entry, and a Sum of a convolution with
  another profile raises: `C141_convolution_refuted`, `C141_moved_convolution_refuted`, `C141_mixed_sum_refuted`. Drawing goes through vmap and is not affected.
* **F93** (C141) DeltaFunction._xValue (deltafunction.py:56-61) asks `jax.lax.cond` about an array and raises at an array of positions: `C141_delta_refuted`.
* **F94** (C142) Bounds built from JAX scalars may be defined although their maximum is below their minimum; to_galsim passes the
  four numbers to GalSim, which calls such bounds undefined, and they come back undefined: `C142_bounds_refuted`. The points within stay the same: `C142_bounds_points`.
* **F95** (C142) BaseWCS.from_galsim (wcs.py:228-294) given a jax_galsim WCS returns None: the class derives from galsim.BaseWCS and has a known name, so both checks
  pass, but no isinstance branch applies: `C142_wcs_own_refuted`. A class derived directly from GalSim's UniformWCS under that name meets the same end.
* **F96** (C142) Image.to_galsim (image.py:1313-1319) drops the header, which from_galsim keeps, and both directions drop the mark of a constant image: `C142_image_attributes_refuted`.
* **F97** (C143) The product of two profiles is accepted: withScaledFlux passes any object that is not callable on as the flux ratio (transform.py:36-47), and no
  check or conversion follows: `C143_products_refuted`.
* **F98** (C144) Transformation.__init__ multiplies the flux ratio it was given in place (`*=`, transform.py:86). Given a NumPy array and a scaled profile it overwrites
  the caller's array; with f = np.array(3.0) and q = g * f, the call q * f changes f to 9 and the flux of q from 3 to 9 times that of g: `C144_arrays_refuted`.
* **F99** (C146) The WCS classes and CelestialCoord hash their repr while == compares values. PixelScale(1) equals PixelScale(1.0) with another hash
  (`C146_int_refuted`), and w = JacobianWCS(1.0, 0.0, 0.0, 1.0) equals w.inverse(), whose repr has -0.0 (`C146_inverse_refuted`); sets, dicts and
  caches keyed by such objects miss equal keys.
* **F100** (C147) Transforming a Transformation that was made with propagate_gsparams=False and gsparams of its own merges the two (transform.py:62-88): the result has
  propagate_gsparams=True but its original keeps other gsparams. Evaluating its repr passes the gsparams on, so eval(repr(p)) != p: `C147_merged_refuted`.
* **F101** (C148) Without jax_enable_x64, Gaussian(sigma=0.1) equals Gaussian(sigma=jnp.array(0.1)), compared in 32 bits, but hashes 0.1 and not 0.10000000149;
  == is not transitive either (`C148_mixed_refuted`). A profile equals what a jitted function returns for it, but is not found by it in a set or dict.
* **F102** (C149) Angle.__eq__ uses jnp.array_equal, which makes 32-bit arrays of Python floats unless jax_enable_x64 is set, while <, <=, >, >= and hash use the floats
  themselves. Angles a millionth of an arcsecond apart near 0.1 radians are equal, ordered by <, and hash differently: `C149_close_refuted`. CelestialCoord.__eq__ compares the same way.
* **F103** (C150) Shear(z) tests jnp.iscomplex(z), which asks for a non-zero imaginary part, where a test of the type (jnp.iscomplexobj) is meant. Shear(Shear(g1=0.1).shear) raises
  TypeError, as does every JAX complex on the real axis; Python complex numbers are accepted: `C150_axis_refuted`.
* **F104** (C151) The expansion of z^nu K_nu(z) near zero needs Gamma(-2-nu), which is negative for 0 < nu < 1, but _gamma is exp(lgamma), the absolute value. The second term is added
  instead of subtracted, so the brightness rises with radius up to 1e-10 scale radii and drops at the switch to kv: `C151_rises_refuted`, `C151_sign_lost`. By hand: 2 percent at nu = 0.1, a factor of four at nu = 0.01.
* Observations without a theorem: the fifth coefficient in `fsmallz_nu` (spergel.py) has `z4 * 8.0 * z2` where its neighbours have sums;
  `_gamma` = exp(lgamma) is |Gamma|, wrong in sign for arguments in (-1, 0); the range of nu is not checked; Moffat photons may land
  beyond maxR, where xValue is 0 (C115 is stated within maxR); bisection with the same sign on both ends returns an end.

Observed while reading, not modelled: DeltaFunction.xValue is not proportional to the flux;
`jnp.arry` (typo) in an unreachable branch of Convolution._is_analytic_x.
