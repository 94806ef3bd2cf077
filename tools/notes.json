{
 "C01": {
  "note": "Floating point sqrt is Flocq's correctly rounded binary64 square root. The bound 2^103 for floats is sharp up to a factor near 1: a number of spectra above it is rejected (refuted for all T)."
 },
 "C03": {
  "note": "For every faithfully rounded power below 2^50; with correct rounding a counter near 2^53 gets the wrong row (refuted for all k)."
 },
 "C07": {
  "note": "The rejection of mismatched lengths has exceptions (broadcast of single values), stated as multalm_short_bl_refuted."
 },
 "C09": {
  "note": "Real arithmetic; draws are independent standard normals represented by their coefficient vectors."
 },
 "C10": {
  "note": "Both claims are refuted by witnesses."
 },
 "C12": {
  "note": "That stored rows stay valid is refuted; lazy consumption is proved correct."
 },
 "C13": {
  "note": "Spherical harmonic transforms are outside the model: the theorem is about the coefficients handed to alm2map."
 },
 "C14": {
  "note": "Missing spectra (None), which the documentation admits, are refuted."
 },
 "C15": {
  "note": "eigh is any function returning a correct eigenvalue decomposition. Without the hypothesis on the largest eigenvalue the claim is refuted."
 },
 "C16": {
  "note": "eigh is any function returning a correct eigenvalue decomposition. Two documented behaviours are refuted."
 },
 "C17": {
  "note": "eigh is any function returning a correct eigenvalue decomposition."
 },
 "C18": {
  "note": "The linear solver is any function that is correct when it succeeds. Termination is not part of this property, see C65."
 },
 "C19": {
  "note": "Refuted for every correct solver and every iteration limit >= 1."
 },
 "C20": {
  "note": "Real arithmetic."
 },
 "C22": {
  "note": "Equations hold on the stated domains; outside of them the round trip is refuted (other branch of the square root)."
 },
 "C24": {
  "note": "cltocorr/corrtocl are arbitrary functions on finite arrays."
 },
 "C25": {
  "note": "Refuted, with non-termination of step halving in exact arithmetic and an unattainable target."
 },
 "C26": {
  "note": "Real arithmetic."
 },
 "C31": {
  "note": "Conservation needs the distribution to lie inside the shells; otherwise refuted."
 },
 "C32": {
  "note": "Real arithmetic; rounding is the subject of C71. num=0 is refuted."
 },
 "C34": {
  "note": "Counts are given; the theorem covers the batching code, not the Poisson draws."
 },
 "C35": {
  "note": "Refuted by a witness."
 },
 "C36": {
  "note": "The exact total needs a contrast (after biasing and removing the mean) of at least -1; without, it is refuted because clipping raises the total."
 },
 "C39": {
  "note": "The range claim outside of the bias grid is refuted."
 },
 "C40": {
  "note": "Real trigonometry with an explicit atan2."
 },
 "C41": {
  "note": "The documented bearing is refuted: the code uses the conjugate convention."
 },
 "C42": {
  "note": "Holds for every distance function with the additivity relation stated as hypothesis."
 },
 "C43": {
  "note": "A stack of weights with more axes than two is refuted."
 },
 "C44": {
  "note": "A rejected plane leaves redshifts, distances, weights and convergence unchanged; that nothing at all changes is refuted, and a map of the wrong size raises too late."
 },
 "C45": {
  "note": "Transforms and pixel windows are arbitrary functions; the theorem is about the coefficients handed to them."
 },
 "C46": {
  "note": "Real arithmetic, all draws."
 },
 "C47": {
  "note": "argsort is any sorting permutation. An empty array of objects is refuted."
 },
 "C48": {
  "note": "A single position for many objects is refuted beyond one chunk."
 },
 "C49": {
  "note": "For all draws on which the loop ends, and it ends once every entry has had an acceptable value."
 },
 "C50": {
  "note": "Array-valued normalisation is refuted."
 },
 "C51": {
  "note": "nextafter is an argument with its order properties as hypotheses."
 },
 "C52": {
  "note": "tomo_bounded and tomo_contiguous hold for any increasing function with values in (-1, 1] as erf; the others are about the error function itself."
 },
 "C53": {
  "note": "NaN is modelled as a missing value; termination and number of results of ryden04 are refuted for some inputs."
 },
 "C54": {
  "note": "Zero variance is refuted."
 },
 "C55": {
  "note": "Contents of files are modelled, not bytes. Loading under the same name without suffix is refuted."
 },
 "C56": {
  "note": "The FITS library is modelled as a list of tables."
 },
 "C57": {
  "note": "Keys are paths in the free tree generated by split, so 'distinct' is independence of the free model, not of threefry bits."
 },
 "C58": {
  "note": "That positions are fresh is refuted."
 },
 "C59": {
  "note": "That an array with too few axes is rejected is refuted."
 },
 "C60": {
  "note": "Sequences other than tuples and lists are refuted."
 },
 "C64": {
  "note": "Rotations are arbitrary averaging operators."
 },
 "C65": {
  "note": "Refuted for every correct solver."
 },
 "C66": {
  "note": "eigh is any function returning a correct eigenvalue decomposition."
 },
 "C67": {
  "note": "lstsq is any function returning a minimiser."
 },
 "C68": {
  "note": "QR decomposition and solver are arbitrary correct functions; optimality is refuted when the iteration limit is reached."
 },
 "C69": {
  "note": "That every call accepted by NumPy is accepted is refuted."
 },
 "C70": {
  "note": "DensityWeight is refuted for a universe with matter and a cosmological constant."
 },
 "C71": {
  "note": "The exact claims are refuted by three concrete calls; bounds on the errors are proved. NumPy's arange, no overflow."
 },
 "C75": {
  "note": "Real arithmetic; the error function is defined as an integral in Spec_Erf. Sources need redshifts above -1."
 },
 "C76": {
  "note": "Expected values are iterated limits of Riemann integrals in units of the Gaussian integral (Spec_Gauss); jointly_normal lists moments and exponentials, not arbitrary functions."
 },
 "C77": {
  "note": "One object; expected values are iterated Gaussian integrals (Spec_Gauss), the random numbers a list of independent standard normal numbers. Real arithmetic."
 },
 "C78": {
  "note": "The transforms between spectra and correlations are any two functions inverse to each other; NaN and infinite values are not told apart. Real arithmetic."
 },
 "C79": {
  "note": "Uniform numbers are real numbers between 0 and 1, as a list of independent numbers; the Poisson count of uniform_positions is given. Real arithmetic."
 },
 "C80": {
  "note": "The transforms between spectra and correlations are given by matrices inverse to each other. Nothing is claimed for iterations at which the derivative vanishes. Real arithmetic."
 },
 "C81": {
  "note": "alm2map is the sum over spherical harmonics, given by values in the pixels that satisfy the addition theorem; the transform to correlations is the Legendre sum at its nodes. NaN and infinite values are not told apart. Real arithmetic."
 },
 "C82": {
  "note": "Nothing is claimed for matrices that become semi-definite but not definite within the limit, except when they vanish. Real arithmetic."
 },
 "C83": {
  "note": "healpy.query_strip selects pixels by the height of their centre, compared with the cosines of the angles, as the HEALPix library does. The visibility map is a function of the direction, the limit of small pixels; pixels and averages are in C64. Real arithmetic."
 },
 "C84": {
  "note": "The functions of NumPy, JAX and healpy are given, as functions of contents of arrays. Copies and memory are not modelled."
 },
 "C85": {
  "note": "The source of normal numbers is a list whose entries are independent and standard normal. The loop is limited to a number of repetitions; the chance that it needs more is part of the statement and vanishes geometrically. Real arithmetic."
 },
 "C86": {
  "note": "As for C85. The variance is the mean of those of the two components. Nothing is claimed about the fit above 1/5."
 },
 "C87": {
  "note": "The generators' Poisson and uniform methods are taken to give independent numbers of the requested distributions; a number is only given out for the mean that it was drawn for. Within pixels nothing is claimed about the positions of positions_from_delta (see C58). Functions of the latitude are continuous apart from jumps. Real arithmetic."
 },
 "C88": {
  "note": "For one-dimensional arrays and scalars (bounds have the size of the result). The generator's normal method is taken to give independent numbers. Existence of the expected values is a hypothesis on the functions of the redshifts; photometric_bins shows it for bins. Real arithmetic."
 },
 "C89": {
  "note": "For arrays that are broadcast to a common size. The generator's normal and uniform methods are taken to give independent numbers. Existence of the expected values is a hypothesis on the functions of the ellipticity; ryden_centred shows it for the components. Real arithmetic."
 },
 "C90": {
  "note": "The loop is that of the example notebooks without lensing, shapes and photometric redshifts. The generator's poisson and uniform methods are taken to give independent numbers with the requested distributions. Functions of redshift are step functions. Real arithmetic."
 },
 "C91": {
  "note": "The notebooks (examples/1-basic) are modelled for the loop over shells; the shear maps are left out. The signal of the galaxies is the expected number in each pixel, before the Poisson numbers are drawn. Correlation functions are those of C81, with the same assumptions about alm2map and the harmonics. lognormal_unclipped gives the case in which the condition of no clipping holds for all random numbers."
 },
 "C92": {
  "note": "pkgutil.extend_path and os.path.join are modelled as in the standard library on POSIX; what the importers find is a parameter. Names of places must not be empty or end with a separator, as os.path.join would then not insert one. extension_keeps_path_refuted is the finding that the given path is replaced, not extended."
 },
 "C93": {
  "note": "The example is modelled with a bound on the repetitions of the loop in gaussian_phz; the Err results are counted as 0, and the limit of many repetitions is part of the theorems. redshift_density_refuted is the finding that the redshifts drawn are uniform between two points of the grid."
 },
 "C94": {
  "note": "The functions of healpy and healpix are parameters that return NumPy arrays; whether they write into their arguments is not modelled. ang2pix_xp_refuted is the finding that the documented parameter xp is rejected without arrays."
 },
 "C95": {
  "note": "Expected values are integrals over normal and uniform numbers."
 },
 "C96": {
  "note": "In shear_map_moments and shear_map_noise galaxies are at any place within their pixels, with independent Poisson numbers in pixels; in uniform_shear_map they are drawn by uniform_positions, and the indicator function of each pixel is continuous along meridians apart from jumps and has a mean over the sphere. Real arithmetic."
 }
}