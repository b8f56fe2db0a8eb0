# Formal model of vspec-vsm in Rocq (Coq 8.16.1)

This file is generated by `tools/mkdesign.py` from `tools/design.md.in` (the two tables in
sections 5 and 6 are computed from the sources and from `Print Assumptions`).

## 1. Approach

The code is numerical Python (numpy + astropy). Each Python function is modelled by one or a
few Gallina definitions that follow it branch by branch; every definition cites file and lines.

* **Numbers.** `num` (`Num.v`) = exact reals extended with `+inf`, `-inf`, `NaN`, with IEEE-754
  rules for the special values and exact (unrounded) real arithmetic for finite values. It is
  used wherever a special value can arise in the code (division by zero, `arccos` outside
  [-1,1], `np.inf` sentinels, `np.nan` masks). Where a value is always finite (trigonometry on
  finite angles) plain `R` is used.
* **Exceptions.** Functions that can raise return `res A := Ok a | Raise e` (`Py.v`), with one
  constructor of `exn` per Python exception class.
* **Arrays.** `arr A` = rows of cells (a 1-D array is one row) with NumPy's broadcasting rule,
  so shape errors and silent broadcasts are part of the model.
* **Dictionaries.** Insertion-ordered association lists with Python's overwrite semantics.
* **Mutation and identity.** In `MSpots.v` ... `MStar.v` a mutating method is a function
  returning the new object. `MHeap.v` models the same calls on a store of objects with
  addresses, where stars may share collections, spots, faculae and generators. C73 proves that
  both models agree for stars that share no mutable parts; C74 describes what sharing does.
* **Randomness.** Every random draw is an explicit argument (or a stream `nat -> ...`);
  theorems quantify over all draws in the documented range of the generator. A `while` loop
  that redraws is a function with fuel returning `Raise OutOfDraws` when the fuel ends;
  termination statements exhibit enough fuel.
* **Units.** Angles in rad (deg where the code computes in deg), temperature K, area MSH (spots)
  or km^2 (faculae, flares), time days, stellar radius solar radii. `MUnits.v` models the
  unit-carrying code a second time over a model of astropy quantities (value, unit size,
  dimension; conversions, comparisons and functions raise for wrong dimensions). C96-C98 prove
  that it computes what the unit-free model computes, whatever the units; C99 is about
  quantities of the wrong kind. In the unit-free model units are explicit only
  where a unit error is the observable behaviour (`growth_rate` of `SpotGenerator.off`,
  `FlareGenerator.pdf`, `FlareGenerator.off`).

## 2. Files

| file | content |
|---|---|
| `Num.v`, `Py.v` | numbers with special values, exceptions, arrays, dictionaries |
| `MConfig` `MHelpers` `MGrid` `MSpots` `MFaculae` `MXoflares` `MFlares` `MGranules` `MStar` `MPlot` `MHeap` `MWarn` `MUnits` `MFormat` `MLabel` `MSingle` `MDouble` `MArea` `MArgs` `MRng` `MCosine` `MAge64` `MMake` `MClean64` `MSpotClean64` | the model: definitions only |
| `Spec*.v` | vocabulary of the statements, independent of the model's helpers (unit vectors, area laws, lens areas, visible disk, reachable stars, sharing) |
| `L*.v` | lemmas and proofs |
| `Props*.v` | property theorems only: each is closed by `exact`, followed by `Print Assumptions`, with an `Example` meeting the hypotheses beside it |
| `Test*.v` | the assertions of the repository's tests (`/repo/test`), proved about the model; a check of the model, not of the properties |
| `tools/` | generators for `properties.jsonl`, `MANIFEST.json`, `Props*.v` and this file |
| `seeded/LOG.jsonl` | wrong programs tried against the theorems. In entries without a note on this, `theorems_failed` lists theorems whose `Print Assumptions`, with the lemmas that no longer proved skipped, showed such a lemma. Where the note says so, the build stopped at the failed lemma and the theorems listed are those that depend on it by name; they were not rebuilt. A failed proof script does not by itself show that the statement is false of the edit |

## 3. Plan per property

| id | modelled | proof method |
|---|---|---|
| C01-C05, C61, C62 | `coordinate_grid.py` grids as arrays over all sizes, display, areas | induction over linspace, sums of lists, trapezoid error |
| C06-C07 | spherical law of cosines / haversine | trigonometric identities, Cauchy-Schwarz on unit vectors |
| C08-C09 | `proj_ortho` incl. rounding to 4 decimals and pole branches | trigonometry; rounding error bound |
| C10-C11 | circle overlap on `num` | case analysis, derivatives, integral (Coquelicot) |
| C12 | rounding half-even, clipping | floor lemmas |
| C13-C17 | `StarSpot.age`, `SpotCollection.age` | closed-form trajectory, induction over lists of steps |
| C18-C23, C66 | spot geometry, painting, coverage, stale grids, surface fraction | fold invariants, trigonometry, quadrature bounds |
| C24-C28 | `SpotGenerator` with draws as arguments | induction over draws |
| C29-C36, C67 | `faculae.py` | closed-form trajectory, induction, derivatives, integrals |
| C37-C46, C64, C65 | `flares.py`, `xoflares.py` | Coquelicot integrals, list induction, trapezoid error |
| C47-C48, C63, C72 | `granules.py` (the sample drawn from the process is an arbitrary value) | case analysis, calculus, positive definiteness through a decaying rotating state |
| C49-C60, C68-C71 | `star.py` | folds over pixel arrays, dictionary lemmas, state-machine invariant over all reachable stars |
| C73-C74 | all mutating calls on a store of objects | simulation of the value model, frame lemmas |
| C75 | coverage report of turned and mirrored stars | pixels matched in pairs, permutation invariance |
| C76-C79 | accuracy of grid sums, spot coverage and foreshortening | Riemann sums, Fibonacci blocks of the spiral, caps between Lipschitz ramps, surface integrals |
| C80 | no exception in any sensible simulation; observability of every reachable star | invariant over all programs of star calls, composed from C13, C25-C29, C34, C35, C44, C68, C71 |
| C81-C82 | depth of transits | discs between smooth bumps; the mean of a bump does not depend on its position because the mean of a derivative along a rotation is 0 |
| C83-C84 | warnings of the transit, of temperature clipping and of coverage calls | the list of warnings issued by a call, pixel counting, composition with C31, C54 |
| C85-C88 | larger planets, the closed form of any history, spectra from reports, adding spots | monotonicity of the quadrature and of dictionaries, induction over histories, regrouping sums by value |
| C89-C90 | grids of different kinds; the photosphere's share with spots and faculae | counting warnings over folds; caps as steps of spherical distance, spherical triangle inequality |
| C91 | the light curve of a transit | rotating the observer to the pole (mean over the sphere is invariant), mean over circles, area of two overlapping discs by a derivative argument |
| C92-C93 | spots and faculae in the long run, compared with the coverage asked for | exchange of sums (over cycles, over births), Riemann sums of unimodal functions |
| C94-C95 | stars while their spots grow and decay; the surface covered by mature spots | monotonicity of the spot map in the spots' areas; bounds on sin, C77 |
| C96-C99 | units: any units give the unit-free results, wrong kinds raise | scaling lemmas for every operation of `Num.v`; dimension arithmetic |
| C100-C102 | resolution of the grids, accuracy of displayed maps, which spots a grid sees | golden ratio: bounds on k*abs(k*phi-p), Fibonacci residues; packing of separated points on a cube; triangle inequality on the sphere |
| C103-C104 | maps in single precision, and what that does to the report | rounding to nearest even on the reals: characterisation, uniqueness, monotonicity; rounding commutes with painting when the umbra is the cooler part; equality of the two dictionaries |
| C105 | spots and the depth of transits | sums over pixels regrouped by temperature; monotonicity from C87 and C88 |
| C106 | the far side does not matter | spherical triangle inequality; painting faculae overlays a map independently of what is there; entries recovered from spectra |
| C107-C108 | texts of numbers and spots; the labels of the report and the units in them | decimal digits and their values: existence and uniqueness; a simulation between the report in kelvin and the report in any units |
| C109 | the report in all cases, also when labels collide | the last value of a key wins: dictionaries over any keys, sums by permutation |
| C110-C111 | the report in double precision: error bounds, and what holds exactly | rounding to nearest even as in C103 with other constants; summation as an arbitrary binary tree, error growth by induction; monotonicity of rounding |
| C112-C114 | sizes of any sign, the base class, arguments of other kinds | case analysis over integers and classes; loops over a store that stop at an exception |
| C115-C118 | random streams, default generators, seeds | computations on streams as state transformers; simulation between two runs of arbitrary programs |
| C119-C120 | the eclipse of the planet through its orbit | C11 and the distance from the centre of the disk as a function of the phase |
| C121 | programs of calls on stars that share generator objects: no exceptions, termination | C80 through C115; results do not depend on fuel once it suffices |
| C122 | flares over observations without gaps | error of the trapezoid rule per cell <= variation of the light curve, which telescopes over windows; area of the template >= 9/5 |
| C123 | areas of spiral grids in single precision | a common factor cancels in shares; C58 with another pixel radius; rounded sums as trees, as in C110 |
| C124 | a star k times as large behaves like the small one | scaling by k commutes with each function of the model, special values included |
| C125 | mean of the reports over one rotation | sums of periodic functions over a period do not change under shifts; C87 |
| C126 | order of spots, faculae and flares | permutations; pixel-wise minimum of spots; brush form of painting a facula |
| C127 | flares on another clock, of other energies and temperatures | each step of the calculation commutes with the change |
| C128 | cosines of angles in double precision: error, where the arc cosine fails and what follows | error propagation through products and sums; modulus of continuity of acos; Taylor bounds of sine and cosine at 8 degrees in rational arithmetic |
| C129 | reports of two observers next to each other, and with rounded cosines, are close | Lipschitz bound of the darkened, projected disk; chord at most angle; means with close weights |
| C130 | ageing faculae in double precision: drift, bounds, slicing | errors of logarithms of radii add up; invariant of the run in terms of ln(r/R), one-off error at the peak |
| C131 | ageing spots in double precision: drift, bounds, lost growth | as C130 with the rounded growth rate in place of the exact one; errors of the linear decay add up |
| C132 | construction: grids of parts do not matter, errors, what is left out | what a star keeps of its parts are their other attributes; the rest is recomputed on the star's grid |
| C133 | which faculae a collection keeps in double precision | a facula is kept iff no prefix of the times makes it dead; C130 gives the logarithm of its radius, compared with that of the threshold |
| C134 | which spots a collection keeps in double precision | as C133 with C131; once more is lost than there is, the rounded difference is not positive |

All properties in `properties.jsonl` are proved in full; no theorem carries the suffix `_partial`.

## 4. Trusted base

* Coq 8.16.1's kernel (`vcheck` rebuilds everything from a clean checkout).
* The axioms of the standard library listed in section 6. No axiom is declared in this project,
  no kernel check is switched off, nothing is admitted. `vcheck` also lists the constants of the
  opaque standard-library modules `Rdefinitions.RbaseSymbolsImpl`, `Rdefinitions.RinvImpl` and
  `ssrunder.Under_rel`: these are sealed definitions of the standard library, not axioms.
* Coquelicot (derivatives, integrals, limits) is used as a library; it adds no axioms of its own.
* That the definitions in `M*.v` describe the Python code (section 5), given the simplifications
  of section 1 and the list at the end of section 5. numpy, astropy and scipy functions are
  modelled by their documented behaviour.

## 5. What is modelled

Every function of the package with the definitions that model it (from the citations in `M*.v`):

@COVERAGE

Not modelled, or simplified:

* Float rounding: results are exact reals plus special values, with these exceptions. The temperature
  maps are float32 in the code (`gridmaker.zeros()`); `MSingle.v` models the rounding of temperatures that this
  causes, with the casting rules of numpy 1.26 (C103, C104). `MDouble.v` models the rounding of sums, products and
  quotients behind the report (C110, C111): the cosines, areas and covered fractions of the pixels and the order in which
  numpy adds (a binary tree) are arguments there. The errors of libm (sin, exp, log) are
  arguments with a given bound where they occur (C128-C131, C133, C134).
  Areas of spiral grids are also float32: `MArea.v` models their rounding, that of the pixel radii and that of the
  coverage by spots (C123). `MCosine.v` models the rounding in the spherical law of cosines, which places faculae and
  pixels on the disk (C128), for any sine and cosine of a given accuracy; the arc cosine is exact there.
  `MAge64.v`, `MClean64.v` and `MSpotClean64.v` model the rounding in ageing spots and faculae (C130, C131) and in removing decayed ones (C133, C134), times being in the unit of the lifetimes and rates.
* Random-number generator internals: values drawn are arguments; in `MRng.v` (C115-C118) they come from streams with a state,
  whose transition functions are arguments. The tinygp/JAX sampler: `Granulation.get_coverage`
  takes the sample as an argument, in `MRng.v` any function of seed, mean and covariance; mean and covariance are modelled.
* astropy beyond `MUnits.v`: equivalencies, unit names and prefixes (except the names in texts, `MFormat.v`, and in the labels
  of the report, `MLabel.v`), plain numbers compared with
  dimensional quantities (other than the cases that occur in the code).
* Grids have natural numbers as sizes, and objects of the right kind are passed, except in `MArgs.v` (C112-C114), which models
  integers of any sign, the base class `CoordinateGrid` and other arguments. There, of what runs on a grid of negative size only the
  beginning up to the first array is modelled. `MMake.v` (C132) models the constructors with arguments left out and any kinds of grids, for objects
  as values.
* Drawing (matplotlib, cartopy), docs, examples and
  tests. Warnings are modelled (`MWarn.v`) by the values they report, without Python's filters. `Star.plot_surface` is modelled up to the arrays handed to matplotlib.
* Of the tests, `Test*.v` leaves out: assertions about Python types, numerical integrals over fine grids, comparisons with six-digit
  decimals, assertions that depend on random draws, the values of the transit mask on the 500 x 1000 grid and the depth of a transit on a
  grid of a million points. One assertion does not hold in exact arithmetic: the two fractions of a facula at exactly 90 degrees sum
  to one in the test only because the floating point cosine of 90 degrees is 6e-17 and not 0 (see C31).
* Scalar (non-array) latitudes in `proj_ortho`, whose item assignment would raise.

## 6. Print Assumptions

@ASSUMPTIONS

## 7. Findings about the code

Consequences of the model that a reader of the code may not expect. Those with an id are theorems.

* A spot with a positive growth rate below 2^-53 per day never grows and never stops counting as growing: `1 + g` rounds to 1 (C131).
* `Star.average_teff` always raises `TypeError`: the dictionary keys are strings (C60).
* `StarSpot.age`, decaying branch, compares the lost area with `area_max` instead of
  `area_current`: a single spot can get a negative area (C15); the collection removes it.
* `SpotCollection.add_spot` assigns the grid but not the stored distances, so spots built on
  another grid raise `ValueError` or are silently broadcast (C22). `Star.__init__` re-grids the
  collections and generators it is given in place, so stars on different grids must not share
  them (C74). A spot added twice ages twice per call (C74).
* `get_angle_between` and `proj_ortho` take the arc cosine of a rounded cosine. For two equal points it can be above 1, for
  example at latitude 8 degrees: a star with a facula exactly below the observer there cannot be observed (`ValueError`), and a
  pixel exactly below the observer may stay uncovered behind a planet (C128). `np.clip(mu, -1, 1)` would help.
* `FaculaCollection.add_faculae`: a facula on a rectangular grid added to a collection on a spiral
  grid raises `TypeError` (C36). Grid equality is asymmetric (C05).
* `Star.calc_coverage`: `KeyError` when no photosphere pixel is left and the granulation contrast
  is not 0; temperatures equal to two decimals collide and overwrite each other, so the total
  is below 1 (C52).
  Maps are float32, so a star whose temperature is near a half hundredth of a kelvin may not find its
  own label: `KeyError` for every observer, e.g. at 3300.005001 K (C104).
  The labels of the map are written in the unit of the last spot's umbra, those of photosphere and granulation in
  the star's: a star in kK with a spot in K raises `KeyError` (C108).
  Granulation weaker than the resolution of the labels deletes the photosphere from the report (C109).
* The index map of faculae is int16: from 32768 faculae on, indices wrap around (C67).
* `FlareGenerator.pdf` always raises a unit error (C43). `SpotGenerator.off` has a growth rate in days:
  its spots cannot age.
* `SpotGenerator.mean_lifetime` uses the growth rate where the ageing law uses ln(1+rate), and
  `mean_area` has a sign error (C27); `FaculaGenerator.mean_area` differs from the time average of the
  ageing law (C33). Growth rate 0 with positive decay makes `birth_spots` raise (C26).
* `generate_mature_spots` never terminates if all drawn spots have zero area (C28).
* `Facula.effective_area` compares unrounded temperatures but uses rounded keys: equal rounded keys
  break the unpacking in `add_faculae_to_map`. A wall fraction of 0 still paints a pixel. `clip_teff`
  makes a "hot" wall cooler than a star hotter than 3900 K.
* `SpotCollection.map_pixels`: with an umbra hotter than the penumbra the result depends on the
  order of the spots (C19). Spots larger than the star have NaN radius and cover nothing.
* `StarSpot.surface_fraction` is the fraction of the area of the hemisphere, not of the disk (C23).
* `proj_ortho` ignores the longitude of the observer at the poles and rounds cos c to 4 decimals (C08, C09).
* `get_granulation_coverage` looks up a missing parameter name when the mean is 0 and the
  contrast is not: `KeyError`. `amplitude` is not a standard deviation (C72).
  The default seed is `np.random.randint(1, None)`, which is always 0, and a sample depends only on time differences: every
  observation window of the same length has the same granulation, and single moments always the same value (C118).
* `rng=np.random.default_rng()` is evaluated once per function: generators without `rng` share streams, so what one star
  gets depends on calls on other stars (C116).
* Flare windows below 20 minutes give 0, so an observation cut into short exposures sees no flares at all (C122); `tfinish <= tstart - 10 min` raises; no flares generated
  yet: `AttributeError`. Flare peaks may lie after the end of the observation (C41).
* Rectangular grids with 1 or 2 latitudes have zero or NaN area; a spiral grid of 0 points raises.
  `plot_surface` with its default resolution raises on any rectangular grid but 500x1000 (C69).
