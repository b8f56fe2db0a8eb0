# Formal model of vspec-vsm in Rocq (Coq 8.16.1)

This file is generated by `tools/mkdesign.py` from `tools/design.md.in` (the two tables in
sections 5 and 6 are computed from the sources and from `Print Assumptions`).

## 1. Approach

The code is numerical Python (numpy + astropy). Each Python function is modelled by one or a
few Gallina definitions that follow it branch by branch; every definition cites file and lines.

* **Numbers.** `num` (`Num.v`) = exact reals extended with `+inf`, `-inf`, `NaN`, with IEEE-754
  rules for the special values and exact (unrounded) real arithmetic for finite values. It is
  used wherever a special value can arise in the code (division by zero, `arccos` outside
  [-1,1], `np.inf` sentinels, `np.nan` masks). Where a value is always finite (trigonometry on
  finite angles) plain `R` is used.
* **Exceptions.** Functions that can raise return `res A := Ok a | Raise e` (`Py.v`), with one
  constructor of `exn` per Python exception class.
* **Arrays.** `arr A` = rows of cells (a 1-D array is one row) with NumPy's broadcasting rule,
  so shape errors and silent broadcasts are part of the model.
* **Dictionaries.** Insertion-ordered association lists with Python's overwrite semantics.
* **Mutation and identity.** In `MSpots.v` ... `MStar.v` a mutating method is a function
  returning the new object. `MHeap.v` models the same calls on a store of objects with
  addresses, where stars may share collections, spots, faculae and generators. C73 proves that
  both models agree for stars that share no mutable parts; C74 describes what sharing does.
* **Randomness.** Every random draw is an explicit argument (or a stream `nat -> ...`);
  theorems quantify over all draws in the documented range of the generator. A `while` loop
  that redraws is a function with fuel returning `Raise OutOfDraws` when the fuel ends;
  termination statements exhibit enough fuel.
* **Units.** Angles in rad (deg where the code computes in deg), temperature K, area MSH (spots)
  or km^2 (faculae, flares), time days, stellar radius solar radii. `MUnits.v` models the
  unit-carrying code a second time over a model of astropy quantities (value, unit size,
  dimension; conversions, comparisons and functions raise for wrong dimensions). C96-C98 prove
  that it computes what the unit-free model computes, whatever the units; C99 is about
  quantities of the wrong kind. In the unit-free model units are explicit only
  where a unit error is the observable behaviour (`growth_rate` of `SpotGenerator.off`,
  `FlareGenerator.pdf`, `FlareGenerator.off`).

## 2. Files

| file | content |
|---|---|
| `Num.v`, `Py.v` | numbers with special values, exceptions, arrays, dictionaries |
| `MConfig` `MHelpers` `MGrid` `MSpots` `MFaculae` `MXoflares` `MFlares` `MGranules` `MStar` `MPlot` `MHeap` `MWarn` `MUnits` `MFormat` `MLabel` `MSingle` `MDouble` `MArea` `MArgs` `MRng` `MCosine` `MAge64` `MMake` `MClean64` `MSpotClean64` | the model: definitions only |
| `Spec*.v` | vocabulary of the statements, independent of the model's helpers (unit vectors, area laws, lens areas, visible disk, reachable stars, sharing) |
| `L*.v` | lemmas and proofs |
| `Props*.v` | property theorems only: each is closed by `exact`, followed by `Print Assumptions`, with an `Example` meeting the hypotheses beside it |
| `Test*.v` | the assertions of the repository's tests (`/repo/test`), proved about the model; a check of the model, not of the properties |
| `tools/` | generators for `properties.jsonl`, `MANIFEST.json`, `Props*.v` and this file |
| `seeded/LOG.jsonl` | wrong programs tried against the theorems. In entries without a note on this, `theorems_failed` lists theorems whose `Print Assumptions`, with the lemmas that no longer proved skipped, showed such a lemma. Where the note says so, the build stopped at the failed lemma and the theorems listed are those that depend on it by name; they were not rebuilt. A failed proof script does not by itself show that the statement is false of the edit |

## 3. Plan per property

| id | modelled | proof method |
|---|---|---|
| C01-C05, C61, C62 | `coordinate_grid.py` grids as arrays over all sizes, display, areas | induction over linspace, sums of lists, trapezoid error |
| C06-C07 | spherical law of cosines / haversine | trigonometric identities, Cauchy-Schwarz on unit vectors |
| C08-C09 | `proj_ortho` incl. rounding to 4 decimals and pole branches | trigonometry; rounding error bound |
| C10-C11 | circle overlap on `num` | case analysis, derivatives, integral (Coquelicot) |
| C12 | rounding half-even, clipping | floor lemmas |
| C13-C17 | `StarSpot.age`, `SpotCollection.age` | closed-form trajectory, induction over lists of steps |
| C18-C23, C66 | spot geometry, painting, coverage, stale grids, surface fraction | fold invariants, trigonometry, quadrature bounds |
| C24-C28 | `SpotGenerator` with draws as arguments | induction over draws |
| C29-C36, C67 | `faculae.py` | closed-form trajectory, induction, derivatives, integrals |
| C37-C46, C64, C65 | `flares.py`, `xoflares.py` | Coquelicot integrals, list induction, trapezoid error |
| C47-C48, C63, C72 | `granules.py` (the sample drawn from the process is an arbitrary value) | case analysis, calculus, positive definiteness through a decaying rotating state |
| C49-C60, C68-C71 | `star.py` | folds over pixel arrays, dictionary lemmas, state-machine invariant over all reachable stars |
| C73-C74 | all mutating calls on a store of objects | simulation of the value model, frame lemmas |
| C75 | coverage report of turned and mirrored stars | pixels matched in pairs, permutation invariance |
| C76-C79 | accuracy of grid sums, spot coverage and foreshortening | Riemann sums, Fibonacci blocks of the spiral, caps between Lipschitz ramps, surface integrals |
| C80 | no exception in any sensible simulation; observability of every reachable star | invariant over all programs of star calls, composed from C13, C25-C29, C34, C35, C44, C68, C71 |
| C81-C82 | depth of transits | discs between smooth bumps; the mean of a bump does not depend on its position because the mean of a derivative along a rotation is 0 |
| C83-C84 | warnings of the transit, of temperature clipping and of coverage calls | the list of warnings issued by a call, pixel counting, composition with C31, C54 |
| C85-C88 | larger planets, the closed form of any history, spectra from reports, adding spots | monotonicity of the quadrature and of dictionaries, induction over histories, regrouping sums by value |
| C89-C90 | grids of different kinds; the photosphere's share with spots and faculae | counting warnings over folds; caps as steps of spherical distance, spherical triangle inequality |
| C91 | the light curve of a transit | rotating the observer to the pole (mean over the sphere is invariant), mean over circles, area of two overlapping discs by a derivative argument |
| C92-C93 | spots and faculae in the long run, compared with the coverage asked for | exchange of sums (over cycles, over births), Riemann sums of unimodal functions |
| C94-C95 | stars while their spots grow and decay; the surface covered by mature spots | monotonicity of the spot map in the spots' areas; bounds on sin, C77 |
| C96-C99 | units: any units give the unit-free results, wrong kinds raise | scaling lemmas for every operation of `Num.v`; dimension arithmetic |
| C100-C102 | resolution of the grids, accuracy of displayed maps, which spots a grid sees | golden ratio: bounds on k*abs(k*phi-p), Fibonacci residues; packing of separated points on a cube; triangle inequality on the sphere |
| C103-C104 | maps in single precision, and what that does to the report | rounding to nearest even on the reals: characterisation, uniqueness, monotonicity; rounding commutes with painting when the umbra is the cooler part; equality of the two dictionaries |
| C105 | spots and the depth of transits | sums over pixels regrouped by temperature; monotonicity from C87 and C88 |
| C106 | the far side does not matter | spherical triangle inequality; painting faculae overlays a map independently of what is there; entries recovered from spectra |
| C107-C108 | texts of numbers and spots; the labels of the report and the units in them | decimal digits and their values: existence and uniqueness; a simulation between the report in kelvin and the report in any units |
| C109 | the report in all cases, also when labels collide | the last value of a key wins: dictionaries over any keys, sums by permutation |
| C110-C111 | the report in double precision: error bounds, and what holds exactly | rounding to nearest even as in C103 with other constants; summation as an arbitrary binary tree, error growth by induction; monotonicity of rounding |
| C112-C114 | sizes of any sign, the base class, arguments of other kinds | case analysis over integers and classes; loops over a store that stop at an exception |
| C115-C118 | random streams, default generators, seeds | computations on streams as state transformers; simulation between two runs of arbitrary programs |
| C119-C120 | the eclipse of the planet through its orbit | C11 and the distance from the centre of the disk as a function of the phase |
| C121 | programs of calls on stars that share generator objects: no exceptions, termination | C80 through C115; results do not depend on fuel once it suffices |
| C122 | flares over observations without gaps | error of the trapezoid rule per cell <= variation of the light curve, which telescopes over windows; area of the template >= 9/5 |
| C123 | areas of spiral grids in single precision | a common factor cancels in shares; C58 with another pixel radius; rounded sums as trees, as in C110 |
| C124 | a star k times as large behaves like the small one | scaling by k commutes with each function of the model, special values included |
| C125 | mean of the reports over one rotation | sums of periodic functions over a period do not change under shifts; C87 |
| C126 | order of spots, faculae and flares | permutations; pixel-wise minimum of spots; brush form of painting a facula |
| C127 | flares on another clock, of other energies and temperatures | each step of the calculation commutes with the change |
| C128 | cosines of angles in double precision: error, where the arc cosine fails and what follows | error propagation through products and sums; modulus of continuity of acos; Taylor bounds of sine and cosine at 8 degrees in rational arithmetic |
| C129 | reports of two observers next to each other, and with rounded cosines, are close | Lipschitz bound of the darkened, projected disk; chord at most angle; means with close weights |
| C130 | ageing faculae in double precision: drift, bounds, slicing | errors of logarithms of radii add up; invariant of the run in terms of ln(r/R), one-off error at the peak |
| C131 | ageing spots in double precision: drift, bounds, lost growth | as C130 with the rounded growth rate in place of the exact one; errors of the linear decay add up |
| C132 | construction: grids of parts do not matter, errors, what is left out | what a star keeps of its parts are their other attributes; the rest is recomputed on the star's grid |
| C133 | which faculae a collection keeps in double precision | a facula is kept iff no prefix of the times makes it dead; C130 gives the logarithm of its radius, compared with that of the threshold |
| C134 | which spots a collection keeps in double precision | as C133 with C131; once more is lost than there is, the rounded difference is not positive |

All properties in `properties.jsonl` are proved in full; no theorem carries the suffix `_partial`.

## 4. Trusted base

* Coq 8.16.1's kernel (`vcheck` rebuilds everything from a clean checkout).
* The axioms of the standard library listed in section 6. No axiom is declared in this project,
  no kernel check is switched off, nothing is admitted. `vcheck` also lists the constants of the
  opaque standard-library modules `Rdefinitions.RbaseSymbolsImpl`, `Rdefinitions.RinvImpl` and
  `ssrunder.Under_rel`: these are sealed definitions of the standard library, not axioms.
* Coquelicot (derivatives, integrals, limits) is used as a library; it adds no axioms of its own.
* That the definitions in `M*.v` describe the Python code (section 5), given the simplifications
  of section 1 and the list at the end of section 5. numpy, astropy and scipy functions are
  modelled by their documented behaviour.

## 5. What is modelled

Every function of the package with the definitions that model it (from the citations in `M*.v`):

| function | lines | definitions |
|---|---|---|
| `get_lat_points` | coordinate_grid.py:11-26 | `get_lat_points`, `linspace`, `p_linspace` |
| `get_lon_points` | coordinate_grid.py:29-44 | `get_lon_points`, `linspace_open`, `p_linspace` |
| `CoordinateGrid._grid` | coordinate_grid.py:52-54 | `pgrid` |
| `CoordinateGrid.new` | coordinate_grid.py:56-85 | `grid_new`, `gval`, `p_new`, `pgrid`, `pyval` |
| `CoordinateGrid.grid` | coordinate_grid.py:87-98 | `grid_points`, `p_grid`, `pgrid` |
| `CoordinateGrid.cos_angle_from_disk_center` | coordinate_grid.py:100-135 | `grid_mu`, `law_cos`, `law_cos64`, `p_mu`, `pgrid`, `q_law_cos`, `star_mu64` |
| `CoordinateGrid._area` | coordinate_grid.py:138-140 | `grid_area`, `grid_area32`, `p_area`, `pgrid` |
| `CoordinateGrid.area` | coordinate_grid.py:143-153 | `grid_area`, `grid_area32`, `p_area`, `pgrid` |
| `CoordinateGrid._zeros` | coordinate_grid.py:155-157 | `f32`, `f32_exp`, `f32_round`, `pgrid` |
| `CoordinateGrid.zeros` | coordinate_grid.py:159-174 | `grid_zeros`, `p_zeros`, `pgrid` |
| `CoordinateGrid.__eq__` | coordinate_grid.py:176-178 | `p_eq`, `p_eq_method`, `p_reflected`, `pgrid` |
| `CoordinateGrid._display_grid` | coordinate_grid.py:180-182 | `pgrid` |
| `CoordinateGrid.display_grid` | coordinate_grid.py:184-216 | `display_grid`, `p_display`, `pgrid` |
| `RectangularGrid.__init__` | coordinate_grid.py:266-272 | `p_rect_init`, `pgrid`, `pyval`, `rect_init` |
| `RectangularGrid.oned` | coordinate_grid.py:274-288 | `p_oned`, `pgrid`, `rect_oned` |
| `RectangularGrid._grid` | coordinate_grid.py:290-303 | `pgrid` |
| `RectangularGrid._zeros` | coordinate_grid.py:305-320 | `grid_zeros`, `pgrid` |
| `RectangularGrid.__eq__` | coordinate_grid.py:322-345 | `grid_eq`, `grid_ne`, `p_eq`, `p_eq_method`, `p_reflected`, `pgrid` |
| `RectangularGrid._area` | coordinate_grid.py:348-361 | `pgrid` |
| `RectangularGrid.dlat` | coordinate_grid.py:364-373 | `dlat`, `p_dlat`, `pgrid` |
| `RectangularGrid.dlon` | coordinate_grid.py:376-385 | `dlat`, `dlon`, `p_dlat`, `p_dlon`, `pgrid` |
| `RectangularGrid._display_grid` | coordinate_grid.py:387-405 | `pgrid` |
| `SpiralGrid.__init__` | coordinate_grid.py:415-416 | `grid` |
| `SpiralGrid._grid` | coordinate_grid.py:418-439 | `rmod`, `spiral_colat`, `spiral_lat`, `spiral_lon`, `u_rad` |
| `SpiralGrid._zeros` | coordinate_grid.py:441-442 | `grid_zeros` |
| `SpiralGrid._area` | coordinate_grid.py:445-449 | `grid_area` |
| `SpiralGrid.__eq__` | coordinate_grid.py:451-460 | `grid_eq_warnings`, `grid_ne`, `p_eq`, `p_eq_method`, `p_eq_method_warnings`, `p_eq_warnings`, `p_reflected` |
| `SpiralGrid._display_grid` | coordinate_grid.py:462-493 | `char_len`, `display_weight`, `spiral_resample` |
| `Facula.__init__` | faculae.py:114-147 | `PARTS_PARAMS`, `fac_args`, `fac_attrs`, `facq`, `facula`, `make_parts`, `new_facula`, `nfac`, `star_args`, `which_grid` |
| `Facula.floor_dteff` | faculae.py:150-158 | `DTemp`, `fac_floor_dteff`, `fq_floor_dteff`, `u_K` |
| `Facula.wall_dteff` | faculae.py:161-168 | `DLen`, `fac_wall_dteff`, `fq_wall_dteff` |
| `Facula._r` | faculae.py:171-181 | `fac_r`, `haversine`, `q_haversine` |
| `Facula.set_gridmaker` | faculae.py:183-198 | `fac_assign_grid` |
| `Facula.age` | faculae.py:200-226 | `exp64`, `fac_age`, `fac_age64`, `fac_with`, `fq_age`, `fq_with`, `hset`, `log64` |
| `Facula.effective_area` | faculae.py:228-262 | `fac_effective_area`, `fq_effective_area` |
| `Facula.fractional_effective_area` | faculae.py:264-288 | `fac_fractional_area`, `fq_fractional_area`, `q_total` |
| `Facula.angular_radius` | faculae.py:290-304 | `fac_angular_radius`, `fq_angular_radius` |
| `Facula.map_pixels` | faculae.py:306-322 | `fac_map_pixels`, `fq_covers` |
| `FaculaCollection.__init__` | faculae.py:348-355 | `PARTS_PARAMS`, `faccoll`, `fcc_init`, `make_parts`, `new_faccoll`, `nfaccoll`, `star_args`, `view_fc`, `view_sc`, `w_facs`, `which_grid`, `world` |
| `FaculaCollection.set_gridmaker` | faculae.py:356-368 | `faccoll`, `fcc_set_gridmaker`, `heach`, `hset`, `nfaccoll`, `nfc_set_gridmaker`, `p_star_grids`, `w_facs`, `w_fc_set_gridmaker`, `world` |
| `FaculaCollection.add_faculae` | faculae.py:370-385 | `argument`, `faccoll`, `fcc_add`, `fcc_add_warnings`, `goods`, `h_new_facs`, `heach`, `heach_items`, `hset`, `item`, `iterations`, `w_add_fac_arg`, `w_facs`, `w_fc_add` |
| `FaculaCollection.clean_faclist` | faculae.py:387-398 | `fac_dead`, `fac_dead64`, `faccoll`, `fcc_age64`, `fcc_clean`, `fq_clean`, `fq_dead`, `w_facs` |
| `FaculaCollection.age` | faculae.py:400-413 | `faccoll`, `fcc_age`, `fcc_age64`, `fq_collection_age`, `heach`, `w_fc_age` |
| `FaculaCollection.map_pixels` | faculae.py:415-447 | `faccoll`, `fcc_int_map`, `fcc_map_pixels`, `int16` |
| `FaculaGenerator.__init__` | faculae.py:530-573 | `DEFAULT_FAC`, `PARTS_PARAMS`, `cval`, `facgen`, `fg_args`, `fg_attrs`, `fg_init`, `given`, `make_parts`, `maybe`, `new_facgen`, `new_fg`, `nfacgen`, `which_grid` |
| `FaculaGenerator.off` | faculae.py:575-609 | `DEFAULT_FAC_OFF`, `facgen`, `fg_off`, `given`, `new_facgen_off` |
| `FaculaGenerator.mean_area` | faculae.py:613-622 | `facgen`, `fg_mean_area`, `gfq_mean_area` |
| `FaculaGenerator.get_n_faculae_expected` | faculae.py:624-650 | `facgen`, `fg_n_expected`, `gfq_n_expected` |
| `FaculaGenerator.get_coords` | faculae.py:652-685 | `facgen`, `fdraws`, `fg_generate`, `numpy` |
| `FaculaGenerator.generate_faculae` | faculae.py:687-726 | `facgen`, `fg_generate`, `gfq_new`, `h_new_facs`, `halloc`, `numpy`, `s_generate_faculae` |
| `FaculaGenerator.birth_faculae` | faculae.py:728-749 | `facgen`, `fg_birth`, `numpy`, `s_birth_faculae`, `s_poisson` |
| `StellarFlare.__init__` | flares.py:66-72 | `flare`, `flareq` |
| `StellarFlare.calc_peak_area` | flares.py:74-88 | `DEnergy`, `DMass`, `DTime`, `SIGMA_SB`, `lq_peak_area`, `nipow`, `peak_area`, `q_sigma_sb`, `u_km2` |
| `StellarFlare.areacurve` | flares.py:90-114 | `areacurve`, `lq_curve_args` |
| `StellarFlare.get_timearea` | flares.py:116-132 | `get_timearea`, `q_timearea`, `u_hrkm2` |
| `FlareGenerator.__init__` | flares.py:217-237 | `DEFAULT_FLARE`, `flaregen`, `given`, `new_flaregen` |
| `FlareGenerator.off` | flares.py:239-261 | `DEFAULT_FLARE_OFF`, `given`, `lg_off`, `new_flaregen_off` |
| `FlareGenerator.frequency_greater_than` | flares.py:263-277 | `frequency_gt`, `lgq_frequency` |
| `FlareGenerator.get_nexp_greater_than` | flares.py:279-296 | `lgq_nexp`, `nexp_gt` |
| `FlareGenerator.get_ntotal` | flares.py:298-312 | `ntotal` |
| `FlareGenerator.pdf` | flares.py:314-328 | `flare_pdf`, `lgq_pdf`, `pdf_quantity` |
| `FlareGenerator.cdf` | flares.py:330-344 | `flare_cdf`, `lgq_cdf` |
| `FlareGenerator.quantile_func` | flares.py:346-366 | `lgq_quantile`, `quantile_func` |
| `FlareGenerator.get_peaks` | flares.py:368-403 | `cluster_sizes`, `cumsum_R`, `cumsum_nat`, `flare_dtimes`, `get_peaks`, `nat_sum`, `numpy`, `s_peaks`, `s_poissons` |
| `FlareGenerator.gen_fwhm` | flares.py:405-427 | `gen_fwhm`, `lgq_fwhm`, `numpy`, `s_fwhm` |
| `FlareGenerator.gen_teffs` | flares.py:429-449 | `gen_teffs`, `lgq_teff`, `numpy`, `s_teffs` |
| `FlareGenerator.gen_coords` | flares.py:451-479 | `gen_coords`, `numpy` |
| `FlareGenerator.generate_flare_series` | flares.py:481-517 | `generate_flare_series`, `ldraws`, `numpy`, `s_generate_flares`, `s_poisson`, `zip_flares` |
| `FlareCollection.__init__` | flares.py:540-545 | `argument`, `flarecoll`, `flc_arg`, `flc_init`, `flc_list_changed`, `iterations` |
| `FlareCollection.index` | flares.py:547-565 | `flarecoll`, `flc_arg`, `flc_index`, `flc_init`, `item`, `lq_in_period`, `u_hr` |
| `FlareCollection.mask` | flares.py:567-589 | `flc_mask` |
| `FlareCollection.get_flares_in_timeperiod` | flares.py:591-613 | `flc_in_period` |
| `FlareCollection.get_visible_flares_in_timeperiod` | flares.py:615-649 | `flc_visible`, `law_cos`, `q_law_cos`, `sub_obs` |
| `FlareCollection.get_flare_integral_in_timeperiod` | flares.py:651-687 | `TEN_MIN`, `flc_integral`, `linspace`, `q_samples`, `sub_obs`, `u_min` |
| `GranulationKernel.__init__` | granules.py:37-39 | `kernel_num`, `kernel_term` |
| `GranulationKernel.evaluate` | granules.py:41-47 | `kernel_eval`, `kernel_num`, `kernel_term` |
| `build_gp` | granules.py:50-68 | `build_gp`, `gp_cov`, `gproc` |
| `save_cast_coverage` | granules.py:71-82 | `save_cast1`, `save_cast_coverage` |
| `Granulation.__init__` | granules.py:108-122 | `default_seed`, `gran_init`, `granulation`, `new_granulation`, `randint` |
| `Granulation.off` | granules.py:124-142 | `gran_off`, `new_granulation_off` |
| `Granulation._build_gp` | granules.py:144-145 | `gran_build_gp` |
| `Granulation.get_coverage` | granules.py:147-164 | `gp_cov_matrix`, `gp_mean_vector`, `gran_get_coverage`, `seeded_coverage` |
| `round_teff` | helpers.py:11-47 | `q_round_teff`, `round_teff` |
| `get_angle_between` | helpers.py:49-103 | `DAng`, `get_angle_between`, `get_angle_between64`, `law_cos`, `law_cos64`, `q_angle_between`, `q_law_cos` |
| `proj_ortho` | helpers.py:105-220 | `law_cos`, `law_cos64`, `nround4`, `proj_ortho`, `proj_ortho_arg`, `proj_ortho_at`, `round4`, `to_radians` |
| `calc_circ_fraction_inside_unit_circle` | helpers.py:223-282 | `circ_fraction`, `segment_area` |
| `clip_teff` | helpers.py:284-314 | `clip_teff`, `clip_warnings`, `q_clip_teff` |
| `StarSpot.__init__` | spots.py:104-133 | `PARTS_PARAMS`, `arg`, `make_parts`, `new_spot`, `nspot`, `spot`, `spot_args`, `spot_attrs`, `spot_init`, `spotq`, `star_args`, `tunit`, `tunits`, `which_grid` |
| `StarSpot.set_gridmaker` | spots.py:135-149 | `haversine`, `hset`, `ns_set_gridmaker`, `nspot`, `p_spot_r`, `q_haversine`, `spot_set_gridmaker` |
| `StarSpot.__str__` | spots.py:151-156 | `digit_char`, `fmt_fixed`, `fmt_quantity`, `spot_str` |
| `StarSpot.radius` | spots.py:159-170 | `spot_radius`, `sq_radius` |
| `StarSpot.angular_radius` | spots.py:172-189 | `spot_angular_radius`, `sq_angular_radius`, `u_deg` |
| `StarSpot.map_pixels` | spots.py:191-217 | `qkey_eqb`, `spot_map_pixels`, `spot_map_pixels_u`, `sq_covers`, `teff_key_eqb` |
| `StarSpot.surface_fraction` | spots.py:219-253 | `law_cos`, `linspace`, `q_law_cos`, `spot_surface_fraction` |
| `StarSpot.age` | spots.py:255-317 | `DTime`, `hset`, `spot_age`, `spot_age64`, `spot_with_area`, `sq_age`, `sq_with`, `u_day`, `u_one` |
| `SpotCollection.__init__` | spots.py:349-358 | `PARTS_PARAMS`, `make_parts`, `new_spotcoll`, `nspotcoll`, `sc_init`, `spotcoll`, `star_args`, `view_sc`, `w_spots`, `which_grid`, `world` |
| `SpotCollection.set_gridmaker` | spots.py:359-370 | `heach`, `nsc_set_gridmaker`, `nspotcoll`, `sc_set_gridmaker`, `w_sc_set_gridmaker`, `w_spots`, `world` |
| `SpotCollection.add_spot` | spots.py:372-394 | `argument`, `goods`, `h_new_spots`, `heach`, `heach_items`, `hset`, `item`, `iterations`, `sc_add_spot`, `spot_assign_gridmaker`, `w_add_spot_arg`, `w_sc_add`, `w_spots` |
| `SpotCollection.clean_spotlist` | spots.py:396-415 | `sc_clean`, `spot_dead`, `sq_clean`, `sq_dead`, `w_spots` |
| `SpotCollection.map_pixels` | spots.py:417-450 | `convert`, `p_map`, `paint_spot`, `paint_spot32`, `paint_spot_u`, `paint_spots`, `paint_spots32`, `paint_spots_u`, `sc_map_pixels`, `sc_map_pixels32`, `sc_map_pixels_u` |
| `SpotCollection.age` | spots.py:452-466 | `heach`, `sc_age`, `sc_age64`, `sq_collection_age`, `w_sc_age` |
| `SpotCollection.get_coverage` | spots.py:468-489 | `add32`, `p_get_coverage`, `p_map`, `sc_get_coverage`, `sc_get_coverage32`, `sc_get_coverage_areas32`, `sum32`, `sum_tree32` |
| `SpotGenerator.__init__` | spots.py:569-597 | `DEFAULT_SPOT`, `PARTS_PARAMS`, `given`, `make_parts`, `maybe`, `new_sg`, `new_spotgen`, `nspotgen`, `sbind`, `sg_args`, `sg_attrs`, `slift`, `spotgen`, `spotgenq`, `sret`, `stream`, `which_grid` |
| `SpotGenerator.off` | spots.py:599-630 | `DEFAULT_SPOT_OFF`, `given`, `new_spotgen_off`, `sg_off` |
| `SpotGenerator.is_static` | spots.py:634-643 | `gq_is_static`, `sg_is_static` |
| `SpotGenerator.mean_lifetime` | spots.py:646-659 | `gq_mean_lifetime`, `sg_mean_lifetime` |
| `SpotGenerator.mean_area` | spots.py:662-677 | `gq_mean_area`, `sg_mean_area` |
| `SpotGenerator.get_coordinates` | spots.py:679-713 | `distribution`, `iso_lat`, `num_or_0`, `numpy`, `rand_lon`, `s_spot_coords`, `sample`, `sdraws`, `sg_coords`, `solar_lat`, `takes` |
| `SpotGenerator.generate_spots` | spots.py:715-757 | `at_index`, `gq_max_area`, `h_new_spots`, `halloc`, `numpy`, `redraw_ratio`, `s_areas`, `s_generate_spots`, `s_ratios`, `sdraws`, `sg_generate` |
| `SpotGenerator.get_n_spots_to_birth` | spots.py:759-779 | `gq_n_expected`, `sg_n_expected` |
| `SpotGenerator.birth_spots` | spots.py:781-803 | `numpy`, `s_birth_spots`, `s_poisson`, `sg_birth` |
| `SpotGenerator.generate_mature_spots` | spots.py:805-842 | `mature_loop`, `numpy`, `s_generate_mature`, `s_mature_loop`, `s_mature_one`, `sg_generate_mature`, `sg_mature_one`, `spot_solid_angle`, `spot_with_area` |
| `Star.__init__` | star.py:104-173 | `DEFAULT_STAR`, `STAR_PARAMS`, `adopt_grid`, `fg_assign_grid`, `given`, `grid_ne`, `h_init`, `hstar`, `make_star`, `new_star`, `nstar`, `p_adopt`, `p_star_grids`, `rstar`, `rstar_init`, `sg_assign_grid`, `star`, `star_args`, `star_init`, `star_init_warnings`, `star_opts`, `tunit`, `tunits`, `view`, `w_adopt` |
| `Star.set_spot_grid` | star.py:175-180 | `new_star`, `set_spot_grid`, `spot_assign_gridmaker`, `w_sc_assign_grid` |
| `Star.set_fac_grid` | star.py:182-187 | `new_star`, `set_fac_grid`, `set_spot_grid`, `w_fc_assign_grid`, `w_fc_set_gridmaker` |
| `Star.map` | star.py:190-199 | `add_faculae_to_map32`, `add_faculae_to_map_u`, `star_map` |
| `Star.age` | star.py:201-214 | `cmd`, `h_age`, `hexec`, `hrun`, `rcall`, `rcall_star`, `rexec`, `rrun`, `star_age`, `star_with_facs`, `star_with_spots` |
| `Star.add_spot` | star.py:216-225 | `cmd`, `hexec`, `hrun`, `rcall`, `rcall_star`, `rexec`, `rrun`, `star_add_spot`, `star_with_spots` |
| `Star.add_fac` | star.py:227-237 | `cmd`, `hexec`, `hrun`, `rcall`, `rcall_star`, `rexec`, `rrun`, `star_add_fac`, `star_with_facs` |
| `Star.get_mu` | star.py:239-257 | `star_mu`, `star_mu64` |
| `Star.ld_mask` | star.py:259-283 | `ld_mask` |
| `Star.area_projection_coefficient` | star.py:285-300 | `area_projection`, `proj64` |
| `Star.ld_mask_for_plotting` | star.py:302-310 | `ld64`, `ld_plot` |
| `Star.get_jacobian` | star.py:312-321 | `calc_coverage_areas32`, `star_jacobian` |
| `Star.add_faculae_to_map` | star.py:323-363 | `add_faculae_to_map`, `add_faculae_to_map32`, `add_faculae_to_map64`, `add_faculae_to_map_u`, `any_true`, `faculae_warnings`, `mask_assign`, `paint_facula`, `paint_facula32`, `paint_facula_at`, `paint_facula_u`, `paint_faculae`, `paint_faculae32`, `paint_faculae64`, `paint_faculae_u`, `paint_warnings`, `quantile`, `rinsert`, `rsort` |
| `Star.get_pl_frac` | star.py:365-392 | `get_pl_frac`, `planet_xy` |
| `Star.get_transit_mask` | star.py:394-495 | `DLen`, `gauss_overlap`, `get_transit_mask`, `get_transit_mask32`, `get_transit_mask64`, `pixel_covered`, `pixel_covered64`, `pixel_covered_radius`, `pixel_reached`, `point_radius32`, `q_planet`, `resolution_warnings`, `somes`, `transit_warnings` |
| `Star.calc_coverage` | star.py:497-573 | `AU_RSUN`, `REARTH_RSUN`, `add64`, `calc_coverage`, `calc_coverage32`, `calc_coverage64`, `calc_coverage_areas32`, `calc_coverage_u`, `coverage64`, `coverage_loop`, `coverage_loop64`, `coverage_loop_u`, `coverage_step`, `coverage_step64`, `coverage_step_u`, `coverage_warnings`, `digit_char`, `div64`, `f64`, `f64_exp`, `f64_round`, `fmt2`, `fmt_fixed`, `fmt_quantity`, `granulate`, `granulate64`, `granulate_u`, `in_unit`, `label_u`, `mul64`, `nunique`, `p_coverage`, `report64`, `show_N`, `show_digits`, `show_padded`, `sub64`, `sum64`, `sum_tree`, `sumtree`, `tkey`, `tkey_eqb`, `uinsert` |
| `Star.birth_spots` | star.py:575-585 | `cmd`, `hexec`, `hrun`, `rcall`, `rcall_rng`, `rcall_star`, `rexec`, `rrun`, `star_birth_spots`, `star_with_spots` |
| `Star.birth_faculae` | star.py:587-599 | `cmd`, `hexec`, `hrun`, `rcall`, `rcall_rng`, `rcall_star`, `rexec`, `rrun`, `star_birth_faculae`, `star_with_facs` |
| `Star.average_teff` | star.py:601-625 | `average_teff`, `avg_loop`, `default_coverage_warnings`, `key_pow4` |
| `Star.plot_surface` | star.py:627-689 | `fins`, `plot_surface`, `plotdata`, `rmaxl` |
| `Star.get_flares_over_observation` | star.py:691-708 | `cmd`, `hexec`, `hrun`, `rcall`, `rcall_rng`, `rcall_star`, `rexec`, `rrun`, `star_get_flares`, `star_with_flares` |
| `Star.get_flare_int_over_timeperiod` | star.py:710-741 | `star_flare_int` |
| `Star.generate_mature_spots` | star.py:743-760 | `cmd`, `hexec`, `hrun`, `rcall`, `rcall_rng`, `rcall_star`, `rexec`, `rrun`, `star_mature_spots` |
| `Star.get_granulation_coverage` | star.py:762-785 | `star_granulation`, `star_seeded_coverage` |
| `_flareintegralnp` | xoflares.py:11-50 | `fd0`, `fd1`, `fd2`, `fd3`, `flareintegral`, `fr0`, `fr1`, `fr2`, `fr3`, `fr4`, `int_after`, `int_before`, `q_flareintegral` |
| `_flaremodelnp` | xoflares.py:52-78 | `fd0`, `fd1`, `fd2`, `fd3`, `flaremodel`, `fr0`, `fr1`, `fr2`, `fr3`, `fr4`, `nipow` |
| `multiflaremodelnp` | xoflares.py:81-91 | `multiflare`, `multiflaremodel` |
| `get_light_curvenp` | xoflares.py:94-145 | `chunk_means`, `get_light_curve`, `light_curve_warnings`, `linspace` |

Not modelled, or simplified:

* Float rounding: results are exact reals plus special values, with these exceptions. The temperature
  maps are float32 in the code (`gridmaker.zeros()`); `MSingle.v` models the rounding of temperatures that this
  causes, with the casting rules of numpy 1.26 (C103, C104). `MDouble.v` models the rounding of sums, products and
  quotients behind the report (C110, C111): the cosines, areas and covered fractions of the pixels and the order in which
  numpy adds (a binary tree) are arguments there. The errors of libm (sin, exp, log) are
  arguments with a given bound where they occur (C128-C131, C133, C134).
  Areas of spiral grids are also float32: `MArea.v` models their rounding, that of the pixel radii and that of the
  coverage by spots (C123). `MCosine.v` models the rounding in the spherical law of cosines, which places faculae and
  pixels on the disk (C128), for any sine and cosine of a given accuracy; the arc cosine is exact there.
  `MAge64.v`, `MClean64.v` and `MSpotClean64.v` model the rounding in ageing spots and faculae (C130, C131) and in removing decayed ones (C133, C134), times being in the unit of the lifetimes and rates.
* Random-number generator internals: values drawn are arguments; in `MRng.v` (C115-C118) they come from streams with a state,
  whose transition functions are arguments. The tinygp/JAX sampler: `Granulation.get_coverage`
  takes the sample as an argument, in `MRng.v` any function of seed, mean and covariance; mean and covariance are modelled.
* astropy beyond `MUnits.v`: equivalencies, unit names and prefixes (except the names in texts, `MFormat.v`, and in the labels
  of the report, `MLabel.v`), plain numbers compared with
  dimensional quantities (other than the cases that occur in the code).
* Grids have natural numbers as sizes, and objects of the right kind are passed, except in `MArgs.v` (C112-C114), which models
  integers of any sign, the base class `CoordinateGrid` and other arguments. There, of what runs on a grid of negative size only the
  beginning up to the first array is modelled. `MMake.v` (C132) models the constructors with arguments left out and any kinds of grids, for objects
  as values.
* Drawing (matplotlib, cartopy), docs, examples and
  tests. Warnings are modelled (`MWarn.v`) by the values they report, without Python's filters. `Star.plot_surface` is modelled up to the arrays handed to matplotlib.
* Of the tests, `Test*.v` leaves out: assertions about Python types, numerical integrals over fine grids, comparisons with six-digit
  decimals, assertions that depend on random draws, the values of the transit mask on the 500 x 1000 grid and the depth of a transit on a
  grid of a million points. One assertion does not hold in exact arithmetic: the two fractions of a facula at exactly 90 degrees sum
  to one in the test only because the floating point cosine of 90 degrees is 6e-17 and not 0 (see C31).
* Scalar (non-array) latitudes in `proj_ortho`, whose item assignment would raise.

## 6. Print Assumptions

The axioms that occur are those of the standard library:

* `ClassicalDedekindReals.sig_forall_dec`, `ClassicalDedekindReals.sig_not_dec` (the construction of the reals),
* `FunctionalExtensionality.functional_extensionality_dep`,
* `Classical_Prop.classic`.

`Print Assumptions` lists for each theorem:

| axioms | theorems |
|---|---|
| none (closed) | `C03_spiral_zero`, `C04_grid_new`, `C05_grid_eq`, `C36_add_faculae`, `C36_constructed`, `C89_adding_faculae`, `C107_unique`, `C113_spots`, `C113_faculae` |
| `functional_extensionality_dep`, `sig_forall_dec` | `C12_round_clip`, `C41_peaks`, `C41_unbounded`, `C47_cast`, `C47_star`, `C49_limb_darkening`, `C107_text`, `C107_same`, `C107_spot` |
| `functional_extensionality_dep`, `sig_forall_dec`, `sig_not_dec` | `C45_reversed`, `C46_sum`, `C46_concat`, `C46_order`, `C46_texp`, `C46_index`, `C46_warning`, `C72_off`, `C98_flares`, `C113_flares`, `C118_distances`, `C118_repeats`, `C118_seed`, `C118_range`, `C126_flares`, `C127_other_flares` |
| `classic`, `functional_extensionality_dep`, `sig_forall_dec`, `sig_not_dec` | `C01_rect_area`, `C01_rect_area_nan`, `C02_rect_points`, `C03_spiral`, `C06_mu`, `C07_angle_between`, `C08_proj_radius`, `C09_proj_accuracy`, `C09_proj_pole`, `C10_circ_total`, `C10_raises`, `C11_circ_area`, `C13_spot_law`, `C13_constructed`, `C14_slicing`, `C15_invariants`, `C15_direct_negative`, `C16_death_time`, `C17_clean`, `C18_angular_radius`, `C19_coolest`, `C19_any_temps`, `C19_order_dependence`, `C20_umbra_inside`, `C21_coverage`, `C22_grids`, `C22_constructed`, `C23_surface_fraction`, `C23_value`, `C24_isotropic`, `C25_generate_spots`, `C26_expected_births`, `C27_means_vs_law`, `C28_mature_spots`, `C29_facula_law`, `C30_facula_lifetime`, `C31_wall_floor`, `C32_guard`, `C32_star`, `C33_mean_area`, `C34_expected`, `C35_generate`, `C37_energy`, `C37_integral`, `C38_light_curve_shape`, `C39_window`, `C40_visible`, `C42_quantile`, `C42_frequency`, `C43_pdf_value`, `C43_pdf_raises`, `C44_series`, `C44_off`, `C44_star`, `C45_time_area`, `C48_kernel`, `C50_sums_to_one`, `C51_entries`, `C52_keyerror`, `C52_collision`, `C53_granulation`, `C54_painting`, `C54_defined`, `C55_wall_pixels`, `C56_clipped`, `C57_transit_eclipse`, `C58_transit_mask`, `C59_unified_grids`, `C60_average_teff`, `C61_display_spiral`, `C61_display_spiral_reject`, `C62_display_rect`, `C63_positive_definite`, `C64_expected`, `C65_accuracy`, `C66_spot_radius`, `C67_index_map`, `C67_overflow`, `C68_init`, `C68_frame`, `C69_plot_data`, `C70_hidden_parts`, `C71_observable`, `C72_process`, `C73_identity`, `C73_init`, `C74_age`, `C74_twice`, `C74_regrid`, `C74_births`, `C75_turn`, `C75_full_turn`, `C75_east_west`, `C75_north_south`, `C75_half_turn`, `C76_quadrature`, `C77_surface_fraction`, `C78_foreshortening`, `C79_disk_centre`, `C80_init`, `C80_run`, `C80_observe`, `C81_transit_depth`, `C81_uniform`, `C82_central_transit`, `C83_resolution_warning`, `C83_fine_grid`, `C83_coarse_grid`, `C83_default_planet`, `C84_clip_warnings`, `C84_contrasts`, `C84_coverage`, `C85_larger_planets`, `C85_same_star`, `C86_history`, `C86_slicing`, `C87_spectrum`, `C88_more_spots`, `C89_building_stars`, `C89_births`, `C90_photosphere_share`, `C91_light_curve`, `C91_uniform`, `C91_behind`, `C91_range`, `C92_spot_budget`, `C92_spot_cover`, `C93_facula_budget`, `C93_facula_cover`, `C94_ageing_spots`, `C95_mature_coverage`, `C96_spots`, `C96_generator`, `C97_faculae`, `C97_generator`, `C98_flare_generator`, `C98_sky`, `C99_wrong_kind`, `C99_surprises`, `C100_spiral_even`, `C100_rect_even`, `C101_display`, `C102_spots_seen`, `C102_faculae_seen`, `C103_rounding`, `C103_map`, `C103_coverage`, `C104_same`, `C104_whole`, `C104_margin`, `C104_keyerror`, `C104_spotless`, `C105_light_source`, `C105_colours`, `C105_more_spots`, `C106_far_side`, `C106_same_front`, `C106_hidden`, `C108_relabelled`, `C108_kelvin`, `C108_labels`, `C108_mixed`, `C109_report`, `C109_lost`, `C109_text`, `C109_vanish`, `C110_rounding`, `C110_entries`, `C110_normalised`, `C110_weights`, `C111_order`, `C111_bound`, `C111_uniform`, `C112_sizes`, `C112_negative`, `C112_compare`, `C112_star`, `C112_methods`, `C114_projection`, `C115_draws`, `C115_frame`, `C115_isolated`, `C115_commute`, `C116_defaults`, `C116_swap`, `C116_influence`, `C117_nothing`, `C117_off`, `C117_temperatures`, `C119_eclipse`, `C120_contacts`, `C121_run`, `C121_fuel`, `C121_ends`, `C122_no_gaps`, `C122_short_windows`, `C123_areas`, `C123_mask`, `C123_report`, `C123_coverage`, `C124_programs`, `C124_reports`, `C124_flares`, `C125_observable`, `C125_mean`, `C125_longitudes`, `C126_programs`, `C126_reports`, `C128_exact`, `C128_error`, `C128_crash`, `C128_transit`, `C128_happens`, `C129_disk`, `C129_flux`, `C129_entries`, `C129_rounding`, `C129_succeeds`, `C130_law`, `C130_bounds`, `C130_slicing`, `C131_law`, `C131_bounds`, `C131_decay`, `C131_tiny`, `C132_same`, `C132_star`, `C132_errors`, `C132_left_out`, `C133_kept`, `C133_exact`, `C134_kept` |

## 7. Findings about the code

Consequences of the model that a reader of the code may not expect. Those with an id are theorems.

* A spot with a positive growth rate below 2^-53 per day never grows and never stops counting as growing: `1 + g` rounds to 1 (C131).
* `Star.average_teff` always raises `TypeError`: the dictionary keys are strings (C60).
* `StarSpot.age`, decaying branch, compares the lost area with `area_max` instead of
  `area_current`: a single spot can get a negative area (C15); the collection removes it.
* `SpotCollection.add_spot` assigns the grid but not the stored distances, so spots built on
  another grid raise `ValueError` or are silently broadcast (C22). `Star.__init__` re-grids the
  collections and generators it is given in place, so stars on different grids must not share
  them (C74). A spot added twice ages twice per call (C74).
* `get_angle_between` and `proj_ortho` take the arc cosine of a rounded cosine. For two equal points it can be above 1, for
  example at latitude 8 degrees: a star with a facula exactly below the observer there cannot be observed (`ValueError`), and a
  pixel exactly below the observer may stay uncovered behind a planet (C128). `np.clip(mu, -1, 1)` would help.
* `FaculaCollection.add_faculae`: a facula on a rectangular grid added to a collection on a spiral
  grid raises `TypeError` (C36). Grid equality is asymmetric (C05).
* `Star.calc_coverage`: `KeyError` when no photosphere pixel is left and the granulation contrast
  is not 0; temperatures equal to two decimals collide and overwrite each other, so the total
  is below 1 (C52).
  Maps are float32, so a star whose temperature is near a half hundredth of a kelvin may not find its
  own label: `KeyError` for every observer, e.g. at 3300.005001 K (C104).
  The labels of the map are written in the unit of the last spot's umbra, those of photosphere and granulation in
  the star's: a star in kK with a spot in K raises `KeyError` (C108).
  Granulation weaker than the resolution of the labels deletes the photosphere from the report (C109).
* The index map of faculae is int16: from 32768 faculae on, indices wrap around (C67).
* `FlareGenerator.pdf` always raises a unit error (C43). `SpotGenerator.off` has a growth rate in days:
  its spots cannot age.
* `SpotGenerator.mean_lifetime` uses the growth rate where the ageing law uses ln(1+rate), and
  `mean_area` has a sign error (C27); `FaculaGenerator.mean_area` differs from the time average of the
  ageing law (C33). Growth rate 0 with positive decay makes `birth_spots` raise (C26).
* `generate_mature_spots` never terminates if all drawn spots have zero area (C28).
* `Facula.effective_area` compares unrounded temperatures but uses rounded keys: equal rounded keys
  break the unpacking in `add_faculae_to_map`. A wall fraction of 0 still paints a pixel. `clip_teff`
  makes a "hot" wall cooler than a star hotter than 3900 K.
* `SpotCollection.map_pixels`: with an umbra hotter than the penumbra the result depends on the
  order of the spots (C19). Spots larger than the star have NaN radius and cover nothing.
* `StarSpot.surface_fraction` is the fraction of the area of the hemisphere, not of the disk (C23).
* `proj_ortho` ignores the longitude of the observer at the poles and rounds cos c to 4 decimals (C08, C09).
* `get_granulation_coverage` looks up a missing parameter name when the mean is 0 and the
  contrast is not: `KeyError`. `amplitude` is not a standard deviation (C72).
  The default seed is `np.random.randint(1, None)`, which is always 0, and a sample depends only on time differences: every
  observation window of the same length has the same granulation, and single moments always the same value (C118).
* `rng=np.random.default_rng()` is evaluated once per function: generators without `rng` share streams, so what one star
  gets depends on calls on other stars (C116).
* Flare windows below 20 minutes give 0, so an observation cut into short exposures sees no flares at all (C122); `tfinish <= tstart - 10 min` raises; no flares generated
  yet: `AttributeError`. Flare peaks may lie after the end of the observation (C41).
* Rectangular grids with 1 or 2 latitudes have zero or NaN area; a spiral grid of 0 points raises.
  `plot_surface` with its default resolution raises on any rectangular grid but 500x1000 (C69).
