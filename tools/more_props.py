
p("Granulation covariance is positive definite",
  "For non-negative scales and positive periods the granulation kernel is a valid covariance: for every finite set of times and real weights the quadratic form sum_ij c_i c_j k(t_i,t_j) is >=0, and it is >0 when the times are distinct, some weight is non-zero and some scale is positive (so the covariance matrix handed to the gaussian process can be factored even with diag=0).",
  "all kernels, all finite sets of times (any number, any order, repetitions allowed), all weights", "matrices of every size", [N+":GranulationKernel.evaluate",  N+":build_gp"])
p("Expected numbers of flares",
  "The rate of flares with energy above E is a power law in E; the expected number above E over a time t is rate(E)*t, the total over the series equals rate(Emin)*t, the expected number above E is the total times one minus the energy distribution function at E, and no flares are expected in zero time.",
  "all generators, energies and times", "continuum", [L+":FlareGenerator.frequency_greater_than", L+":FlareGenerator.get_nexp_greater_than", L+":FlareGenerator.get_ntotal", L+":FlareGenerator.cdf"])
p("Accuracy of flare time-areas",
  "For windows of at least 20 minutes each entry of get_flare_integral_in_timeperiod (in hr km2) differs from the exact time integral of that flare's area curve over the window by at most one integration step times the flare's peak area; the step is at most 30 minutes and tends to 10 minutes for long windows. When the window covers the whole flare the entry is within the same bound of E/(sigma*Teff^4).",
  "all collections, windows and observers", "continuum; an error bound over all inputs", [L+":FlareCollection.get_flare_integral_in_timeperiod", L+":StellarFlare.get_timearea", L+":StellarFlare.areacurve"])
p("Spot radius and area",
  "A spot's radius r (km) satisfies pi*r^2 = its area, one MSH being a millionth of the solar hemisphere 2*pi*Rsun^2; it is NaN exactly for a negative area. On a 1 Rsun star it agrees with the angular radius th through r^2 = 2*Rsun^2*(1-cos th).",
  "all spots and areas", "continuum; unit conversion", [S+":StarSpot.radius", S+":StarSpot.angular_radius"])
p("Facula index map",
  "FaculaCollection.map_pixels returns an integer map shaped like the grid and a dictionary sending the k-th facula to k+1. A pixel of the map holds 0 iff no facula covers it while it still shows the photosphere, and k+1 iff the k-th facula is the last one in the list to do so; spotted pixels are never marked. This holds for up to 32767 faculae; beyond that the map (but not the dictionary) holds only the lowest 16 bits of k+1, so that facula number 65536 reads as no facula.",
  "all collections, temperature maps and star radii", "all lists of faculae and all grids", [F+":FaculaCollection.map_pixels"])
p("Calls on a star change only what they should",
  "Star.__init__ stores the radius, temperature, period, limb darkening and grid it is given, keeps every spot and facula up to their grid, adopts the generators, and without a generator nothing is ever generated. age changes only spots and faculae, both by the same time. add_spot/add_fac and the birth calls only append to their own collection (the generated objects being made for this star's radius). get_flares_over_observation only replaces the flares. An error of an inner call is passed on.",
  "all unified stars, all arguments and random draws", "all states and draws; absence of side effects", [T+":Star.__init__", T+":Star.age", T+":Star.add_spot", T+":Star.add_fac", T+":Star.birth_spots", T+":Star.birth_faculae", T+":Star.get_flares_over_observation", T+":Star.generate_mature_spots"])
p("Plotting data",
  "plot_surface on a rectangular grid raises TypeError unless asked for the grid's own resolution, and then shows the temperature map of the coverage computation with black exactly on pixels more than half hidden by the planet; on a spiral grid every displayed temperature lies between bounds of the map and black appears only if some pixel is more than half hidden. Axes are -90..90 and 0..360 degrees. The planet is drawn above the star iff none of it is hidden. The overlay's opacity is 1 - brightness/max brightness: 0 exactly at the brightest pixels, 1 on the far side, within [0,1].",
  "all stars, observers, planets and resolutions", "all grids and views", [T+":Star.plot_surface", T+":Star.ld_mask_for_plotting"])
p("A planet never hides more than what is there",
  "Every transit mask lies in [0,1] at every phase. For every granulation fraction in [0,1] the `covered` dictionary of calc_coverage has the same keys in the same order as `total`, and 0 <= covered <= total for every entry and for the sums, even when labels collide.",
  "all stars, observers, planets, phases and granulation fractions", "continuum; quadrature overshoot over all pixel sizes", [T+":Star.get_transit_mask", T+":Star.calc_coverage"])
p("A well-formed star can always be observed",
  "Take a star whose grid has at least 4 latitudes and 3 longitudes (or 6 spiral points), with limb darkening positive on the disk, finite temperatures and, for the observer, drawable faculae (distinct rounded contrasts, not exactly on the limb). For every observer, and every planet no larger than the star or not behind it, the map and the mask are defined and finite, the visible disk has positive weight, the planet's visible fraction is in [0,1], and calc_coverage succeeds for every granulation fraction provided the photosphere appears on the map or the granulation contrast is 0.",
  "all such stars, observers, planets, phases and granulation fractions", "absence of errors over a continuum of inputs", [T+":Star.calc_coverage", T+":Star.add_faculae_to_map", T+":Star.get_transit_mask", G+":CoordinateGrid"])
p("The gaussian process of a granulation",
  "The process built for a list of times has the mean coverage as its mean and a covariance that depends only on |ti-tj|, equals amplitude/(sqrt(2)*period) on the diagonal (so the parameter `amplitude` is not the standard deviation), never exceeds that, tends to 0 for distant times, and is positive semidefinite, definite for distinct times and a positive amplitude. A granulation that is off has a NaN covariance.",
  "all granulations and all lists of times", "matrices of every size", [N+":build_gp", N+":Granulation._build_gp", N+":Granulation.off"])
p("Stars that share nothing do not influence each other",
  "Stars are mutable objects that refer to collections, spots, faculae and generators which may be shared. If no two stars have a collection, a spot or a facula in common and none holds an object twice, then a program of calls on all of them, in any order, succeeds iff the calls on each star alone succeed, and leaves each star exactly as those calls alone would; the stars still share nothing afterwards. Building a star over given objects changes no star that has none of them.",
  "all numbers of stars, all stores of objects, all programs of any length, all random draws", "aliasing over unbounded heaps and interleavings", [T+":Star", S+":SpotCollection", F+":FaculaCollection"])
p("Effects of sharing objects between stars",
  "age applies the ageing step to every spot and facula once per occurrence in the star: a decaying spot added k times loses k times the area. A star sharing only the spot (not the collection) keeps it in its list. Building a second star over a collection or generator of the first moves the shared objects to the second star's grid while the first star keeps its own, so with different grids the first star's parts no longer agree. Spots born through a generator on another grid get the collection's grid but keep the distances computed on the generator's grid.",
  "all stores of objects, stars and times", "aliasing over unbounded heaps", [T+":Star.age", T+":Star.__init__", T+":Star.birth_spots", S+":SpotCollection.add_spot"])
p("The report has the symmetries of the sphere",
  "Turn all spots and faculae of a star on a rectangular grid about the axis by a whole number of longitude steps, and turn the observer (not exactly over a pole) with them: calc_coverage returns the same result, exceptions included. On rectangular grids the same holds for the east-west mirror image with the planet's phase negated, and (with 2 or more latitudes) for the north-south mirror image with the inclination replaced by 180 deg minus it; on a spiral grid of n points for half a turn about the equatorial axis at longitude 180 deg (n-1)/golden ratio, with the phase negated and 180 deg minus the inclination (observer not exactly over a pole); on every grid for full turns (longitudes differing by multiples of 360 deg, each feature by its own multiple).",
  "all stars, grid sizes, observers, planets, phases, inclinations and granulation fractions", "metamorphic relation over a continuum of stars and views; order independence of the sums, unique temperatures and percentiles", [T+":Star.calc_coverage", T+":Star.add_faculae_to_map", T+":Star.get_transit_mask", H+":proj_ortho", G+":RectangularGrid", G+":SpiralGrid"])
p("Grid sums approach surface integrals",
  "Let phi be a function on the sphere bounded by B that varies by at most L per radian. Summing phi over the grid's points, weighted with the areas the grid reports, gives the mean of phi over the sphere up to 20*(B+L)*d, where d is at least 1/(nlat-1) and 1/nlon on a rectangular grid, and at least n^(-1/3) on a spiral grid of n points. So the sums converge for both kinds of grid, with a rate.",
  "all bounded Lipschitz functions on the sphere, all grids", "convergence over all resolutions; equidistribution of the golden-ratio spiral", [G+":RectangularGrid.area", G+":SpiralGrid.area", G+":SpiralGrid._grid", G+":RectangularGrid._grid"])
p("Fraction of the surface in spots",
  "SpotCollection.get_coverage on a star of radius Rs is at most the sum of the spots' areas (MSH of the Sun's hemisphere) divided by 4*pi*Rs^2, and equals that sum when no two spots overlap, up to 101*sqrt(d) per spot for a grid of resolution d.",
  "all collections of spots on one grid (any number, sizes and positions, umbra not larger than the spot), all star radii and grids", "continuum of positions and sizes; convergence over all resolutions", [S+":SpotCollection.get_coverage", S+":StarSpot.map_pixels", S+":StarSpot.angular_radius"])
p("Foreshortening of spots",
  "On a star without limb darkening and faculae, with spots of common temperatures that do not overlap and are each entirely visible or entirely hidden, granulation fraction 0 and different labels for different temperatures, the total coverage reported for the umbra temperature is the sum of cos(th)*sin(r_u)^2 over the visible spots (th the angle between observer and spot, r_u the umbra's angular radius), the one for the penumbra the sum of cos(th)*(sin(r)^2 - sin(r_u)^2), and the one for the photosphere the rest, up to (968*n+320)*sqrt(d) for n spots and resolution d.",
  "all such stars, observers and grids; all planets no larger than the star or not behind it", "continuum of positions; convergence over all resolutions", [T+":Star.calc_coverage", T+":Star.map", S+":SpotCollection.map_pixels", S+":StarSpot.map_pixels"])
p("Limb darkening and a spot at the centre of the disk",
  "For a spot of radius r <= 90 deg at the centre of the disk, and every quadratic limb-darkening law positive on the disk, with granulation fraction 0 and different labels for different temperatures, the coverage reported for the umbra, penumbra and photosphere is the share of the disk's light, integral of mu*(1-u1*(1-mu)-u2*(1-mu)^2) dmu over the corresponding range of mu divided by the integral over [0,1], up to 804*(1+|u1|+|u2|)*sqrt(d) divided by the latter.",
  "all such stars, laws, spot sizes and grids", "continuum; convergence over all resolutions", [T+":Star.calc_coverage", T+":Star.ld_mask", S+":StarSpot.map_pixels"])
p("A sensible simulation never crashes",
  "Call a star healthy if its grid is not minimal, its radius and limb darkening are positive, its temperatures finite, its spots have finite rates (growth per unit time above -100%), its faculae have wall and floor contrasts more than 1 K apart, and its generators have sensible parameters. Star(...) with healthy parts returns a healthy star. Every sequence of age, add_spot, add_fac, birth_spots, birth_faculae, generate_mature_spots and get_flares calls with non-negative finite times (positive for flares), healthy additions on the star's grid and coverages in [0,1] raises nothing and leaves a healthy star with unchanged parameters; the only other possibility is that the search for positive area ratios or for a mature coverage has not ended with the draws given, which cannot happen without generate_mature_spots when a round of positive ratios is among the draws. A healthy star then can be observed: add_faculae_to_map and, for every granulation fraction, calc_coverage return, except that calc_coverage raises KeyError if no photosphere is left on the map and the granulation contrast is not 0. The observer must not see a facula centre exactly on the limb, and the planet must be no larger than the star or not behind it.",
  "all healthy stars, all programs of any length, all random draws, observers, planets and granulation fractions", "absence of exceptions over all reachable states of unbounded programs", [T+":Star.__init__", T+":Star.age", T+":Star.birth_spots", T+":Star.birth_faculae", T+":Star.generate_mature_spots", T+":Star.get_flares_over_observation", T+":Star.calc_coverage"])
p("Depth of a transit",
  "Let a planet of radius rp (in stellar radii) be in front of the star at the sky position (px,py), b = sqrt(px^2+py^2) from the centre of the disk. Let e be the largest effect on a squared distance of the projection's rounding (2*min(|px|/100, 1/10000 + rp/100) + |py|/10000) and err = e + 1000*sqrt(d) for a grid of resolution d. Different temperatures on the star have different labels, and some photosphere is left or granulation has no contrast. If the planet is wholly in front of the disk, b + sqrt(rp^2+err) <= 1, then calc_coverage returns, with the planet's visible fraction 1, covered shares whose sum is rp^2 up to e + 1320*sqrt(d) on a star of uniform brightness, wherever the planet is. With brightness between i1 and i2 behind the planet the sum lies between i1*(rp^2-err)/(2*W) and i2*(rp^2+err)/(2*W), up to 160*(1+|u1|+|u2|)*sqrt(d)/W, where W is the disk's light. So the depth converges to within the rounding of the projection.",
  "all stars, observers (poles included), orbits, phases and inclinations with the planet wholly in front of the disk, all grids, all granulation fractions", "continuum of positions; convergence over all resolutions", [T+":Star.get_transit_mask", T+":Star.calc_coverage", H+":proj_ortho"])
p("Depth of a central transit with limb darkening",
  "When the planet is exactly in front of the centre of the disk (and temperatures have different labels, and some photosphere is left or granulation has no contrast), the covered shares returned by calc_coverage sum to the exact share of the disk's light, integral of mu*(1-u1*(1-mu)-u2*(1-mu)^2) dmu over [sqrt(1-rp^2),1] divided by the integral over [0,1], up to 562*(1+|u1|+|u2|)*sqrt(d) divided by the latter; a planet larger than the star hides everything.",
  "all stars with limb darkening positive on the disk, observers, planet radii, grids and granulation fractions", "continuum of laws and radii; convergence over all resolutions", [T+":Star.get_transit_mask", T+":Star.calc_coverage", T+":Star.ld_mask"])
p("The resolution warning",
  "get_transit_mask warns only when the planet is in front of the star and near enough, and then exactly if some pixel of the visible side is in reach (within the planet's radius plus twice the pixel's foreshortened radius 2*sqrt(area)*mu) and the mean foreshortened radius of the pixels in reach exceeds half the planet's radius; the factor it reports is the square of twice that mean over the planet's radius, and exceeds 1. It never warns on a spiral grid of at least 16*(Rs/Rp)^2 points, nor on a rectangular grid with 11 or more latitudes and (nlat-1)*nlon >= 80*(Rs/Rp)^2, wherever the planet is. It does warn on a spiral grid of n points with n*(Rp/Rs)^2 < 16*m^2 if all pixels in reach (at least one) have mu >= m, reporting a factor of at least 16*m^2/(n*(Rp/Rs)^2). A planet beside the star (phase 90 or 270 deg, as by default) at more than Rs+2*Rp never causes it, so that calc_coverage with its default planet only warns about the map, for stars of up to 215 solar radii.",
  "all stars, observers, orbits, planets, phases, inclinations and grids", "continuum of positions; all grid sizes; absence of warnings", [T+":Star.get_transit_mask", H+":proj_ortho", G+":CoordinateGrid"])
p("Clipped facula temperatures are reported",
  "When the map with faculae is computed, a warning that a temperature is too high (too low) is issued for exactly the temperatures T+k above 3900 K (below 2300 K), where k is the rounded wall or floor contrast of a facula that has at least one pixel. The deprecation warning is issued twice per such facula, and nothing else is warned about. If no temperature is reported then every pixel covered by a facula shows the true temperature T+k of the last facula covering it. A calc_coverage call that returns has issued these warnings followed by at most one resolution warning.",
  "all stars whose parts share a grid, all observers, planets and granulation fractions", "all lists of faculae; completeness and soundness of the warnings", [T+":Star.add_faculae_to_map", H+":clip_teff", T+":Star.calc_coverage"])
p("Larger planets hide more",
  "For the same star, observer, orbit, phase and inclination, a planet with a larger radius covers at least as much of every pixel, and no more than all of it. calc_coverage with the larger planet returns the same total dictionary and a covered dictionary with the same labels in the same order, each entry and their sum at least as large. The total dictionary does not depend on the planet at all.",
  "all stars, observers, orbits, phases, inclinations, pairs of radii and granulation fractions in [0,1] for which both calls return; limb darkening nowhere negative", "metamorphic relation over a continuum; monotonicity through a quadrature", [T+":Star.get_transit_mask", T+":Star.calc_coverage"])
p("A star after any history",
  "After any sequence of successful age, add_spot, birth_spots, generate_mature_spots, add_fac, birth_faculae and get_flares calls, the star's spots are, in order, the survivors of the initial spots followed by those of each group that appeared, where every spot has been aged once by the total time since it appeared and exactly the dead ones are gone; the same holds for the faculae, and nothing else about the star has changed except the flares. In particular age(t1), ..., age(tn) is the same as one age(t1+...+tn).",
  "all stars, all sequences of calls of any length, all random draws, non-negative times, sensible spots and faculae", "unbounded histories", [T+":Star.age", T+":Star.add_spot", T+":Star.birth_spots", T+":Star.birth_faculae", T+":Star.generate_mature_spots", S+":SpotCollection.age", F+":FaculaCollection.age"])
p("The spectrum computed from a report is that of the disk",
  "Let F be any function of temperature. The sum over the entries of the total dictionary of F(temperature) times the entry is the sum over the visible pixels of limb-darkened projected area times the pixel's F, divided by the disk's light, where photosphere pixels (those at the star's temperature) count as a mixture: the granulation fraction at the granules' temperature, the rest at the star's. With the covered dictionary, each pixel also counts with the covered part, and with the difference of both with the part the planet leaves visible.",
  "all stars, observers, planets, granulation fractions and functions F, provided the temperatures of the report have different labels and some photosphere is on the map or the granulation contrast is 0", "for all spectra; sums over dictionaries of every size", [T+":Star.calc_coverage"])
p("More spots, less light",
  "Adding spots to a star without faculae makes no pixel warmer, does not increase the photosphere's share, and does not change what the planet covers. For every spectrum F that does not decrease with temperature, neither the flux of the disk nor the flux that passes the planet increases, provided there is no granulation, or the new spots are no warmer than the granules.",
  "all stars without faculae, with finite temperatures and limb darkening nowhere negative, lists of spots on the star's grid, observers, planets, increasing spectra and granulation fractions in [0,1]", "metamorphic relation for all spectra and all spots", [T+":Star.add_spot", T+":Star.map", T+":Star.calc_coverage", S+":SpotCollection.map_pixels"])
p("Grids of different kinds",
  "Adding faculae to a collection raises TypeError exactly if the collection's grid is spiral and some new facula's grid is rectangular. Otherwise the call warns once for every spiral facula added to a rectangular collection, and never if the collection is spiral. Building a star warns once per generator whose grid is spiral while the star's is rectangular, and afterwards both generators are on the star's grid. Births of faculae on a star whose parts share a grid never warn.",
  "all collections, lists of faculae, grids, generators, stars, times and draws", "all lists; soundness and completeness of the warnings", [F+":FaculaCollection.add_faculae", G+":CoordinateGrid.__eq__", T+":Star.__init__", T+":Star.birth_faculae"])
p("The photosphere's share of the disk",
  "On a star without limb darkening, let no two of its spots and faculae touch, each be entirely visible or entirely hidden, the spots be cooler than the photosphere and the faculae painted in other temperatures. The total coverage reported for the photosphere is then 1 minus the sum over the visible ones of cos(th)*sin(r)^2, with th the angle between observer and centre and r the angular radius, up to (484*n+320)*sqrt(d) for n spots and faculae on a grid of resolution d.",
  "all such stars with any number of spots and faculae of individual temperatures (different temperatures having different labels) and granulation fraction 0, observers and grids; all planets no larger than the star or not behind it", "continuum of positions and sizes; convergence over all resolutions", [T+":Star.calc_coverage", T+":Star.add_faculae_to_map", T+":Star.map", F+":Facula.map_pixels", S+":StarSpot.map_pixels"])
p("The light curve of a transit",
  "Let a planet of radius rp (in stellar radii) be on the near side at any sky position (px,py) at a distance b > 0 from the centre of the disk: in front of it, crossing the limb, or beside it. The covered shares returned by calc_coverage sum to the light of the disk of the star hidden by the disc of the planet, integral over r in [0,1] of r*(1-u1*(1-m)-u2*(1-m)^2)*p(r) dr with m = sqrt(1-r^2) and p(r) = acos((r^2+b^2-rp^2)/(2*r*b))/pi the hidden part of the circle of radius r, divided by the light of the whole disk, W. The error is at most (1+|u1|+|u2|)*(e/2 + 1000*(1+rp)*sqrt(d))/W on a grid of resolution d <= 1e-6, with e the effect of the projection's rounding (2*min(|px|/100, 1/10000 + rp/100) + |py|/10000). On a star of uniform brightness and for rp <= 1 the sum is rp^2 times calc_circ_fraction_inside_unit_circle(px, py, rp), up to e + 4000*sqrt(d).",
  "all stars with limb darkening positive on the disk, observers (poles included), orbits, phases with the planet on the near side, inclinations, planet radii, grids and granulation fractions; different temperatures with different labels, some photosphere left or granulation without contrast", "continuum of positions, radii and limb-darkening laws; convergence over all resolutions", [T+":Star.get_transit_mask", T+":Star.calc_coverage", H+":calc_circ_fraction_inside_unit_circle", H+":proj_ortho"])
p("Spots in the long run",
  "Repeat: birth_spots(dt), then age(dt), starting without spots. The total area of the spots, added up over the cycles and times dt, is the sum over the spots born of the time integral of the spot's area, (Amax-A0)/ln(1+g) + Amax^2/(2*W), up to Amax*dt each (from below: counting only spots born early enough to vanish before the end). If the sizes do not scatter, the mean covered part of the star is therefore the coverage asked for times (births/expected births) times q, up to a relative error of Amax*dt/area-time, where q = ((Amax-A0)/ln(1+g) + Amax^2/(2W)) / ((Amax+A0)/g + Amax^2/(2W)): the generator assumes another area-time than its spots have. With the same number of births in every cycle, this holds at the end of every cycle once the first spots have vanished.",
  "all stars, numbers of cycles, time steps, growth and decay rates and random draws with initial area not above the maximum", "unbounded simulations; a property of averages over time", [T+":Star.birth_spots", T+":Star.age", S+":SpotGenerator.get_n_spots_to_birth", S+":SpotGenerator.mean_area", S+":StarSpot.age"])
p("Faculae in the long run",
  "Repeat: birth_faculae(dt), then age(dt), starting without faculae. The total area of the faculae, added up over the cycles and times dt, is the sum over the faculae born of the time integral of the facula's area, pi*rmax^2*L*(1-e^-4)/2, up to pi*rmax^2*dt each (from below: counting only faculae born early enough to vanish before the end). If sizes and lifetimes do not scatter, the mean covered part of the star is therefore the coverage asked for times (births/expected births) times (1+e^-2)/2 < 0.58, up to a relative error of 2*dt/(L*(1-e^-4)): a little more than half of what was asked for. With the same number of births in every cycle, this holds at the end of every cycle after the first 2*L.",
  "all stars, numbers of cycles, time steps, radii, lifetimes and random draws", "unbounded simulations; a property of averages over time", [T+":Star.birth_faculae", T+":Star.age", F+":FaculaGenerator.get_n_faculae_expected", F+":FaculaGenerator.mean_area", F+":Facula.age"])
p("A star brightens while its spots decay",
  "Let a star have no faculae and let its spots fit the star, with umbrae no warmer than penumbrae. If no spot is growing, age(t) makes no pixel cooler, the photosphere's share and, for every spectrum that does not decrease with temperature, the light of the disk and the light that passes the planet do not decrease (with granulation: if the spots are no warmer than the granules), and get_coverage of the spots does not increase. If all spots are growing and t does not exceed their time to maximum, it is the other way round. What the planet covers does not change.",
  "all stars, lists of spots, times, observers, planets, increasing spectra and granulation fractions", "metamorphic relation for all spectra, spots and times", [T+":Star.age", S+":StarSpot.age", S+":SpotCollection.map_pixels", S+":SpotCollection.get_coverage", T+":Star.calc_coverage"])
p("Coverage of mature spots",
  "If generate_mature_spots(c) returns spots that fit the star, of angular radius at most th, then the part of the surface in them (sum of areas over the star's area) is at least c*(1-th^2/12), and without the last spot it is below c: the loop adds up flat discs pi*theta^2, which are larger than the spots. On a grid of resolution d, get_coverage for these n spots is below c plus the last spot's share plus 101*n*sqrt(d), and at least c*(1-th^2/12) - 101*n*sqrt(d) if they do not overlap.",
  "all generators, coverages, stellar radii, random draws and grids for which the call returns", "loop of unbounded length over random draws; compares two notions of area", [S+":SpotGenerator.generate_mature_spots", S+":StarSpot.angular_radius", S+":SpotCollection.get_coverage"])
p("Spots in any units",
  "Spots, times, coordinates and stellar radii may be given in any units: the same quantities in other units give the same result of age (of a spot and of a collection), radius, angular_radius and of the test which grid points are covered, or the same exception. The results are the numbers of the unit-free statements above (areas in MSH, rates per day, radii in R_sun). The same holds for a spot generator's is_static, mean lifetime, mean area, expected number of spots and maximum areas.",
  "all spots, collections, generators, times, radii and coordinates, given in any units with real-valued conversion factors, special float values included", "all systems of units; ties the unit-carrying computation to plain numbers", [S+":StarSpot.age", S+":StarSpot.angular_radius", S+":StarSpot.map_pixels", S+":SpotCollection.age", S+":SpotGenerator.get_n_spots_to_birth", "vspec_vsm/config.py:MSH"])
p("Faculae in any units",
  "The same for faculae: age, floor and wall temperature, effective areas and their fractions, angular radius and map_pixels give the same result whatever the units, namely that of the unit-free statements (km, K, any common unit of time for lifetime and clock), and so do the expected number of faculae, their radii and lifetimes.",
  "all faculae, collections, generators, times, angles, radii and coordinates in any units", "all systems of units; ties the unit-carrying computation to plain numbers", [F+":Facula.age", F+":Facula.effective_area", F+":Facula.map_pixels", F+":FaculaCollection.age", F+":FaculaGenerator.get_n_faculae_expected"])
p("Flares, transits and helpers in any units",
  "The same for flares (peak area, the arguments of the light curve, time-area in hr km2, the test for the observing window, the number of samples of a window), for the flare generator (frequencies, expected numbers, cdf, quantiles, widths, temperatures), for the position and size of the planet and the test whether it is behind the star, and for get_angle_between, haversine and clip_teff.",
  "all flares, generators, energies, times, orbits, angles and temperatures in any units", "all systems of units; the Stefan-Boltzmann constant, erg, R_sun and degrees meet", [L+":StellarFlare.calc_peak_area", L+":StellarFlare.get_timearea", L+":FlareCollection.mask", L+":FlareGenerator", T+":Star.get_transit_mask", T+":Star.get_pl_frac", H+":get_angle_between"])
p("Quantities of the wrong kind",
  "A quantity of the wrong kind is rejected, never silently taken as a number: ageing a spot or facula by something that is not a time, mapping it on a star whose radius is not a length, expecting births for a wrong time or for a wrong radius, flares with an energy that is not an energy, windows that are not times, planets and orbits that are not lengths, and angles that are not angles raise UnitConversionError or UnitTypeError (births of spots: these or an error the generator raises anyway). Four exceptions to what one would expect: round_teff rounds in the unit of its argument, so that 3400 K and 3.4 kK round to different temperatures; FlareGenerator.pdf raises UnitConversionError for every energy in every unit; == between different kinds is False instead of an error; and two wrong kinds can cancel: a time and a radius that are both wrong can give an expected number of faculae without an error.",
  "all quantities of any dimension (real exponents), all spots, faculae, flares, generators and planets", "absence of silent misuse for all kinds of quantities", [S+":StarSpot.age", F+":Facula.age", L+":FlareCollection.mask", L+":FlareGenerator.pdf", H+":round_teff", H+":clip_teff", T+":Star.get_transit_mask"])
p("The resolution of the grids",
  "A spiral grid of n points has the same resolution everywhere, up to constants: any two of its points are at least 2/sqrt(n) apart (as an angle seen from the centre), and every direction is within 24/sqrt(n) of a point. On a rectangular grid, neighbours in latitude are pi/(nlat-1) apart; neighbours in longitude at latitude t are apart by the angle a with sin(a/2) = cos(t)*sin(pi/nlon), at most 2*pi/nlon, and all points of the first and of the last row coincide; every direction is within pi/(2*(nlat-1)) + pi/nlon of a point.",
  "all numbers of points, all pairs of points, all directions", "number theory of the golden ratio for all n; continuum of directions", [G+":SpiralGrid.grid", G+":RectangularGrid.grid", "examples/plot_explore_grids.py"])
p("Displayed maps show the data",
  "There is a constant K such that for every function on the sphere that changes by at most L per radian, the values of display_grid, given the function's values on a spiral grid of n points, differ from the function at the display points by at most K*L/sqrt(n).",
  "all n >= 1, display sizes and Lipschitz functions on the sphere", "convergence for all functions and resolutions", [G+":SpiralGrid.display_grid"])
p("What a grid can see",
  "On a spiral grid of n points, spots that fit the star are seen by get_coverage (at least 1/n is reported) if one of them has an angular radius above 24/sqrt(n); if all of them have angular radii at most 1/sqrt(n), each covers at most one point and get_coverage is at most their number divided by n. A facula of angular radius at least 24/sqrt(n) has a grid point within its radius.",
  "all numbers of points, stars, lists of spots and faculae of any size and position", "continuum of positions and sizes", [S+":SpotCollection.get_coverage", S+":StarSpot.map_pixels", F+":Facula.map_pixels", G+":SpiralGrid.grid"])
p("Maps in single precision",
  "The temperature maps are float32. If every spot's umbra is no warmer than its penumbra, the map of the spots, and the map with the faculae, are in every pixel the float32 nearest to the temperature that exact arithmetic gives (ties to the even one), and raise the same exceptions. Whole numbers up to 2^24 are exact, other temperatures (of at least 2^-126 K) change by at most 2^-24 of their value. get_coverage does not depend on the rounding.",
  "all stars on one grid, spots with finite temperatures below 2^127 K, faculae, observers", "all temperatures, numbers of spots and orders of painting", [S+":SpotCollection.map_pixels", S+":SpotCollection.get_coverage", T+":Star.add_faculae_to_map", G+":CoordinateGrid.zeros"])
p("The report in single precision",
  "calc_coverage formats the float32 temperatures of the map, but looks up the labels of the float64 temperatures of the star and of its granulation. If rounding changes no label of a listed temperature, and the labels are distinct, the report is the same as in exact arithmetic, dictionary order included. This holds if all temperatures are whole kelvins, and for every temperature further than 2^-24 of its value from a half hundredth of a kelvin. Otherwise calc_coverage raises KeyError exactly if one of the two labels is missing. In particular a star without spots and faculae whose rounded temperature has another label, and whose granulation has another label too, raises KeyError for every observer and planet, e.g. at 3300.005001 K.",
  "all stars with the ingredients of a report, temperatures below 2^127 K, observers, planets and granulation fractions", "all temperatures; the failing ones are rare and scattered", [T+":Star.calc_coverage", T+":Star.add_faculae_to_map", G+":CoordinateGrid.zeros"])
p("Spots and the depth of transits",
  "From the report one reads the light that the planet hides: the entries of the covered part times a spectrum. It lies between lo and hi times the hidden share of the disk if the brightness of the pixels behind the planet lies between lo and hi. (Limb darkening is nonnegative, the listed temperatures have distinct labels, and photosphere appears on the map or the granules have its temperature.) If only photosphere of brightness B lies behind the planet, the lost light is B times the hidden share and the star's light is B*(1 - x), where x is the sum over the temperatures t of spots and faculae of share(t)*(1 - F(t)/B); the transit's relative depth is therefore the hidden share/(1 - x). So the transit is at least as deep as the hidden share if nothing visible is brighter than the photosphere, deeper if something visible is darker, and at most as deep if nothing visible is darker. It is at least as deep in colour F as in colour G if spots and faculae contrast at least as much in F; a star without spots and faculae gives the same depth in all colours. Adding spots to a star without faculae, with a spectrum that does not decrease with temperature (and, if the granulation fraction is not 0, spots no warmer than the granules), the planet hides the same part of the disk and no more light, and the star's light does not increase; if none of the changed pixels lies behind the planet the same light is lost and the relative depth does not decrease.",
  "all stars with the ingredients of a report, observers, planets, granulation fractions, spectra and lists of spots", "relations between the two dictionaries of a report for all spectra and stars", [T+":Star.calc_coverage", T+":Star.get_transit_mask", T+":Star.add_spot"])
p("The far side of the star does not matter",
  "Two stars that differ at most in their spots, faculae, flares and generators, and whose temperature maps agree on the visible hemisphere, have reports that say the same (if the listed temperatures have distinct labels, and photosphere appears on both maps or the granules have its temperature), for every planet and granulation fraction: the same part of the planet visible, the same entries for temperatures that occur in both, entries 0 for temperatures that occur in one report only, and the same light, and lost light, for every spectrum. In particular this holds after adding spots and faculae that lie entirely on the far side: spots at an angle of at least 90 degrees plus their angular radius from the point below the observer (with umbrae inside their penumbrae), faculae likewise.",
  "all stars with the ingredients of a report, observers, planets, granulation fractions, spectra and lists of hidden spots and faculae", "all hidden configurations; the dictionaries differ but say the same", [T+":Star.calc_coverage", T+":Star.add_spot", T+":Star.add_fac", T+":Star.add_faculae_to_map", S+":SpotCollection.map_pixels", F+":Facula.map_pixels"])
p("Numbers and spots as text",
  "A finite number formatted with d decimals is: a minus sign exactly if the number is negative (also if it is rounded to zero, '-0.00'), the whole part without superfluous zeros, a point, and d digits (no point if d is 0); without the sign it denotes the multiple of 10^-d nearest to the absolute value, halves to even. Such texts determine sign and digits, so two numbers have the same text exactly if they have the same sign and round to the same multiple (infinities and nan have texts of their own). Two spots have the same text (str) exactly if their temperatures and areas look the same without decimals and their coordinates with one, and the units agree.",
  "all numbers of decimals, all numbers including infinities and nan, all spots, all unit names without a comma", "injectivity of formatting for all real numbers", [S+":StarSpot.__str__", T+":Star.calc_coverage"])
p("The labels of the report",
  "The keys of calc_coverage's dictionaries are texts: the temperature with two decimals in the unit of the temperature map, which is that of the umbra of the last spot (that of the star if there is none), a space and the name of the unit; photosphere and granulation are looked up in the unit of the star's temperature. If both units are the same, and texts identify the same temperatures as hundredths of kelvins do, the report has the same entries in the same order as in kelvin, with the labels rewritten; with kelvins this needs only that no temperature is negative. In general the labels are exactly those of the temperatures on the map, plus that of the granulation if its temperature is not on the map, each once, and calc_coverage raises KeyError exactly if the label of the photosphere or of the granulation is not among them. So a star whose last spot has another unit name than the star (3.3 kK and 2500 K) always raises KeyError, unless photosphere and granulation have the same label and granulation's temperature does not occur on the map.",
  "all stars with the ingredients of a report, units of temperature of any name and positive size for the star and for umbra and penumbra of each spot, observers, planets and granulation fractions", "all combinations of units and temperatures", [T+":Star.calc_coverage", S+":SpotCollection.map_pixels", T+":Star.add_faculae_to_map", S+":StarSpot.map_pixels"])
p("The report in all cases",
  "calc_coverage raises KeyError exactly if no label of the report is that of the photosphere. Otherwise each label that occurs has one entry. Before granulation this is the share of the disk of the hottest temperature with that label (weighted by what the planet hides, for the covered part), or 0 if granulation took the label, which happens if its temperature is not on the map; granulation then moves its fraction of the photosphere's entry to its own (or leaves it, if they share a label). The total therefore is 1 minus the shares of the temperatures whose label is taken by a hotter one or by granulation; with limb darkening that is nowhere negative it is at most 1, and 1 exactly if all of these shares are 0. The same holds for reports with texts as labels and any units. In particular, if granulation is so weak that it has the photosphere's label (less than about 0.01 K), and its temperature is not on the map, the photosphere's entry is 0, and a star without spots and faculae is reported as 0 everywhere.",
  "all stars with the ingredients of a report, labels colliding or not, observers, planets, granulation fractions of any value", "all patterns of collisions", [T+":Star.calc_coverage"])
p("The report in double precision",
  "The sums, products and quotients behind calc_coverage are rounded to doubles, in an order that numpy chooses. Let weights and covered fractions be doubles, h the largest number of additions an element goes through in a sum, and no product underflow. The report in doubles then raises KeyError exactly if a label that is looked up is missing, has the same labels as in exact arithmetic, and each entry differs from its exact value by at most (h+6)/2^51 of it (plus 2^-1070). If the labels are distinct the entries are nonnegative and sum to 1 up to (h+5)/2^51, also with underflow. The limb darkening and the projected areas that the code computes from the cosines, the areas and coefficients u1, u2 >= 0 with u1 + u2 <= 1 are nonnegative doubles, the areas 0 behind the star, so the above applies to them. Rounding is to the nearest double, ties to even: there is exactly one such rounding, and it is monotone.",
  "all numbers of pixels, maps, weights, covered fractions, granulation fractions and all orders of summation; numbers below 2^1000", "all roundings and orders of summation; error bounds for any number of pixels", [T+":Star.calc_coverage", T+":Star.area_projection_coefficient", T+":Star.ld_mask_for_plotting"])
p("What rounding does not spoil",
  "Exactly, in double precision: if more of every pixel is covered, no entry of the covered part of the report becomes smaller and the total part stays the same. No entry of the covered part exceeds that of the total part; the two are equal if everything is covered, and the covered part is exactly 0 if nothing is. All entries are doubles between 0 and 2, and at most 1 unless the temperature or the label of the granulation is on the map. On a star of one temperature (granulation of another label) the total part is exactly 1-g, rounded, for the photosphere and g for the granulation.",
  "all numbers of pixels, maps, weights, covered fractions, granulation fractions and all orders of summation; numbers below 2^1000", "exact statements about rounded results, for all inputs", [T+":Star.calc_coverage"])
p("Grids of any size, and their base class",
  "Sizes may be any integers. With sizes that are not negative all methods of the grids behave as stated above. A grid with a negative size is constructed without complaint; its zeros and area, the temperature map, get_coverage and calc_coverage on it raise ValueError, a rectangular one also raises ValueError for oned, grid and the cosines, while a spiral one has no points. A Star on a negative rectangular grid raises ValueError at construction exactly if it has spots; display_grid of a spiral grid raises ValueError for negative display sizes. Two grids are equal exactly if they have the same class and sizes; comparing a rectangular grid with anything else, or the base class with a rectangular grid, raises TypeError, comparing a spiral grid with another grid, or the base class with a spiral grid, is False with a warning; two base-class grids, and all other methods of the base class, raise NotImplementedError. A star's generators always end up with the grid of the star.",
  "all integers as sizes, all pairs of grids, all lists of spots, all grids of generators", "all integers; sequences of calls from which the error comes late", [G+":CoordinateGrid", G+":CoordinateGrid.new", G+":RectangularGrid", G+":SpiralGrid", T+":Star.__init__", T+":Star.calc_coverage"])
p("One object, several or an iterator",
  "add_spot, add_fac and FlareCollection take one object or a sequence of them and add exactly these, in this order. Given an iterator or generator they raise nothing, but the objects are not added (their grid is set), and a flare collection never returns a flare. If an object in the sequence is of another kind, AttributeError is raised, the collection is unchanged and the objects before it have changed their grid; likewise TypeError for a facula on a rectangular grid added to a collection on a spiral one. Something that cannot be iterated raises TypeError and changes nothing. When the caller changes a list of flares that was given to FlareCollection, flares added at the end are ignored, and the i-th flare of the list is returned exactly if the i-th flare of the former list is in the time period, until index() is called.",
  "all stores of objects, collections, lists of objects (repetitions included) and time periods", "all kinds of arguments and states of the store", [S+":SpotCollection.add_spot", F+":FaculaCollection.add_faculae", L+":FlareCollection", T+":Star.add_spot", T+":Star.add_fac"])
p("The projection's arguments",
  "proj_ortho raises TypeError exactly if one of its arguments is not a quantity, otherwise UnitConversionError exactly if one is not an angle, and otherwise returns the projection of the angles, whatever units they are given in.",
  "all arguments, all units", "all units and kinds of arguments", [H+":proj_ortho"])
p("Random streams",
  "A call that draws random numbers changes a star exactly as one call with explicit values drawn in the range of the distributions would, so everything above about such calls holds whatever numpy's generators return. Only the generator object of the part that is used (spots, faculae or flares) advances, also if the call raises; the result depends on no other generator object. If a star's generator objects are not used by other stars, then in any program of calls on any number of stars, in any order and with exceptions, the star goes through exactly the same states, with the same exceptions, as in the program that contains only its own calls. On one star, calls about different things (spots, faculae, flares) that use different generator objects can be exchanged: same star, same streams, same exceptions.",
  "all states and behaviours of random generators, all stars, all programs of calls", "all interleavings of programs on several stars; no finite test covers a stream's contents", [S+":SpotGenerator", F+":FaculaGenerator", L+":FlareGenerator", T+":Star.birth_spots", T+":Star.birth_faculae", T+":Star.get_flares_over_observation", T+":Star.generate_mature_spots", T+":Star.age"])
p("Default generators are shared",
  "Generators made without rng share one generator object per class, in the whole program; a star's missing generators use the star's rng, which by default is one object for all stars. The default objects of the three kinds of generators, of their off() variants and of Star are distinct. If two stars share a generator object and generate in the same way (same generator and radius), then exchanging the order in which they are asked exchanges what they get. So what a star gets depends on calls on other stars: there are generators for which a facula is born at longitude 0, but at 180 degrees if another star's faculae are born before.",
  "all states and behaviours of random generators, all stars and calls", "aliasing of default arguments", [S+":SpotGenerator", F+":FaculaGenerator", L+":FlareGenerator", T+":Star.__init__"])
p("What is not drawn",
  "If the expected number of spots, faculae or flares is 0, nothing is drawn from the stream and the star does not change, except that generated flares replace the former ones; a negative width of the area distribution or an unknown distribution still raises ValueError. In particular this holds for all births on a star without generators. Temperatures play no part: in any program of calls on any number of stars, changing the temperatures of stars, spots and generators (and limb darkening, granulation, rotation periods, depths and temperature laws of faculae) changes neither the streams nor the exceptions, nor positions, sizes and ages of spots and faculae, nor the flares.",
  "all states and behaviours of random generators, all stars of positive radius, finite times, all programs of calls", "two runs of arbitrary programs are compared", [S+":SpotGenerator.birth_spots", F+":FaculaGenerator.birth_faculae", L+":FlareGenerator.generate_flare_series", T+":Star.birth_spots", T+":Star.birth_faculae", T+":Star.get_flares_over_observation", T+":Star.age"])
p("Granulation repeats itself",
  "The coverage by granulation is determined by the parameters, the seed and the time differences only: times with the same differences up to sign (shifted by a constant, or reversed about a moment) give the same coverage, and asking for one moment at a time always gives the same value. The seed left out is always 0, so two granulations with the same parameters and no seed give the same coverage; the temperature difference does not matter unless it is 0. The coverage is 0 without a temperature difference, and otherwise lies in [0, 1] for any sampler, except that a mean of 0 raises KeyError.",
  "all samplers that are functions of key, mean and covariance, all parameters, seeds and lists of times", "all samplers and times", [N+":Granulation", N+":Granulation.get_coverage", T+":Star.get_granulation_coverage"])
p("The planet behind the star",
  "For a planet no larger than the star, the visible fraction that get_transit_mask and calc_coverage return is one function of the phase, whatever the grid, the observer, the spots and the granulation. It is between 0 and 1, the same before and after phase 0, repeats with every orbit, and does not decrease from phase 0 to phase 180 degrees; it is 0 exactly if the planet is on the far side and its disk inside the star's, and 1 exactly if it is not on the far side or its disk does not overlap the star's. Unless the orbit is seen face-on it strictly increases while the planet is partly visible. If the orbit is larger than the sum of the two radii it is continuous.",
  "all stars, planets up to the size of the star, orbits, inclinations, phases and observers", "monotonicity and continuity over all phases", [T+":Star.get_transit_mask", T+":Star.get_pl_frac", T+":Star.calc_coverage", H+":calc_circ_fraction_inside_unit_circle"])
p("Beginning and end of an eclipse",
  "Let the orbit be at least the sum of the radii R + p, and let b = orbit |cos i|. If b >= R + p the planet is never eclipsed, and if b > R - p never completely. If b < R + p, the planet is partly or fully hidden exactly at phases less than asin(sqrt((R+p)^2 - b^2) / (orbit |sin i|)) from phase 0; if b <= R - p, it is fully hidden exactly at phases up to asin(sqrt((R-p)^2 - b^2) / (orbit |sin i|)), which is smaller.",
  "all stars, planets up to the size of the star, orbits outside the star, inclinations, phases in [-180, 180] degrees and observers", "exact times of the contacts for all geometries", [T+":Star.get_transit_mask", T+":Star.get_pl_frac"])
p("Simulations never crash and always end",
  "Take any number of sensibly configured stars (see C80) whose generators may share generator objects in any way, and any program of sensible calls on them: ageing forward, adding, births of spots and faculae, mature spots up to full coverage, flares. Whatever numpy's generators return, the program never raises, and all stars remain sensibly configured, with the grid, radius and generators they had. The only thing that can happen is that a call that draws until something is found (births of spots, mature spots) goes on forever; it does not if from every state on some round of normal draws is above -5, normal draws have a lower bound, and mature spots are asked only of generators without decay: then the whole program ends. Once it has ended, looking further ahead in the streams makes no difference.",
  "all states and behaviours of random generators, all collections of stars and ways of sharing generator objects, all programs of sensible calls", "all programs and all contents of random streams; termination", [T+":Star.age", T+":Star.add_spot", T+":Star.add_fac", T+":Star.birth_spots", T+":Star.birth_faculae", T+":Star.generate_mature_spots", T+":Star.get_flares_over_observation", S+":SpotGenerator.generate_spots"])
p("Observing without gaps",
  "Let a star be observed without gaps from t0 to t1 in any number of windows, each at least (m+1) times 10 minutes long (m >= 1), while it ages and spots and faculae appear. Suppose each flare that is emitted on the side of the observer lies between t0 and t1 and stays on that side while it lasts, and the others stay on the other side. Then the reports of all windows together stand for the energy of the flares on the observer's side: time-area times sigma T^4, added up, differs from the sum of their energies by at most 5/9 (m+2)/m 10 minutes times the sum of energy / FWHM, however many windows there are. In contrast, windows shorter than 20 minutes, however many, report no energy at all.",
  "all stars, lists of flares with positive width and temperature, sequences of windows and observers", "sums over arbitrarily many windows compared with integrals", [L+":FlareCollection.get_flare_integral_in_timeperiod", L+":StellarFlare.get_timearea", T+":Star.get_flare_int_over_timeperiod"])
p("Areas in single precision",
  "On a spiral grid of n points (n up to 2^100) the areas are float32. They are all the same single-precision number, 1/n up to one part in 2^23, and exactly if n is a power of two; the squared pixel radii of the transit mask are off by at most one part in 2^21. Outside transits the mask and the report are exactly those of exact areas. In a transit the mask is that of C58 with the rounded pixel radius; the keys, the total fractions and the planet's fraction of the report do not change at all, covered fractions stay between 0 and the total, and each changes by at most eps times the total if the mask changes by at most eps in every pixel; the same exceptions are raised. The coverage of spots, computed in float32 with additions in any order of depth h <= 2^20, is a single-precision number between 0 and 1, off by at most (h+1)/2^22 of the exact coverage, 0 exactly if no pixel is covered, 1 if all are, and never decreases when spots are added.",
  "all spiral grids up to 2^100 points, stars, observers and planets, all collections of spots whose temperatures fit in single precision, all orders of summation of depth up to 2^20", "rounding for all sizes of grids and all orders of summation", [G+":SpiralGrid", T+":Star.get_transit_mask", T+":Star.calc_coverage", T+":Star.get_jacobian", S+":SpotCollection.get_coverage"])
p("Only ratios of lengths matter",
  "Make a star k times as large, together with its spots (areas, and areas lost per day, k^2 times), its faculae (radii and depths k times, temperature laws 1/k times per kilometre), the sizes its generators produce, and the energies of its flares (k^2 times). Then any program of calls on it - ageing, adding spots and faculae that are larger in the same way, births, mature spots, flares - with the same random draws raises the same exceptions as on the small star and ends with the small star's result k times as large. With orbit and planet k times as large too, reports, temperature maps, transit masks and the coverage by spots are exactly the same, exceptions and special values included. The flares reported for any period have the same temperatures and k^2 times the time-area, and the rate of flares above k^2 E is that above E.",
  "all k > 0, all stars, programs of calls, observers, planets, periods", "two runs of arbitrary programs are compared", [T+":Star.age", T+":Star.birth_spots", T+":Star.birth_faculae", T+":Star.generate_mature_spots", T+":Star.calc_coverage", T+":Star.get_transit_mask", S+":StarSpot.angular_radius", F+":Facula.fractional_effective_area", L+":StellarFlare.calc_peak_area", L+":FlareGenerator.frequency_greater_than"])
p("The mean over a rotation",
  "Observe a star on a rectangular grid, whose map does not depend on the observer (no faculae, for example), from as many equally spaced longitudes as the grid has, at a fixed latitude, with any planets. Take any brightness as a function of temperature and compute the brightness of the disk from each report. The mean over the rotation is the sum over the zones of latitude of the zone's part of the disk (parts that add up to 1, and are at least 0 unless limb darkening is negative) times the mean brightness along the zone. So if the spots do not overlap, moving each along its latitude by any number of grid steps of its own, to places where they do not overlap either, does not change the mean. Every star without faculae on a grid of at least 4 latitudes and 3 longitudes, with limb darkening positive on the disk, finite temperatures with distinct labels and some photosphere left (or no granulation contrast) can be observed in this way.",
  "all such stars, latitudes of the observer, planets, granulation fractions and brightness functions", "sums over whole rotations, for all arrangements of spots", [T+":Star.calc_coverage", T+":Star.map_pixels", S+":SpotCollection.map_pixels", G+":RectangularGrid"])
p("The order of spots, faculae and flares",
  "If two stars differ only in the order in which spots, faculae and flares are stored, and undergo the same calls (spots and faculae may be added in different orders), they raise the same exceptions and in the end again differ only in order. Reports do not depend on the order of spots, nor on how often a spot is stored, if no umbra is hotter than its penumbra: temperature map, spot coverage and calc_coverage are the same, exceptions included. Faculae are painted one after the other, so their order matters where they overlap; but neighbours in the list without a common pixel may be exchanged, and a facula all of whose pixels are in the next one may be left out, any number of times: whenever the report succeeds, it remains the same. Reports of flares in a period are the same up to order.",
  "all stars, programs of calls, observers, planets and periods", "all orders and repetitions", [T+":Star.age", T+":Star.add_spot", T+":Star.add_fac", T+":Star.calc_coverage", T+":Star.add_faculae_to_map", S+":SpotCollection.map_pixels", L+":FlareCollection.get_flare_integral_in_timeperiod"])
p("Flares on another clock",
  "Suppose the flares of one star are those of another star dt later, with a times the energy and c times the temperature, at places such that each is on its observer's side exactly if the other is on the other observer's (turning star and observer together, for example). Then the report of flares for a period is that of the other star for the period dt earlier, with temperatures c times and time-areas a/c^4 times, in the same order, exceptions and special values included.",
  "all dt, a > 0, c > 0, lists of flares, observers, periods", "two arbitrary flaring stars are compared", [L+":FlareCollection.get_flare_integral_in_timeperiod", L+":FlareCollection.get_visible_flares_in_timeperiod", L+":StellarFlare.get_timearea", L+":StellarFlare.calc_peak_area", T+":Star.get_flare_int_over_timeperiod"])
p("Cosines in double precision",
  "In double precision, with a sine and cosine that are off by at most 2^-53, the cosine of the angle between two points whose longitudes differ by at most 7 rad is off by at most 2e-15. The angle that is computed from it is off by at most 2e-7 rad, or it is NaN; NaN occurs only if the points are within 2e-7 rad of each other or of opposite places. If the angle between the observer and a facula that covers some pixel is NaN, the temperature map and calc_coverage raise ValueError; if it is not NaN for any such facula (and none is computed to be exactly on the limb) the map is made. If the angle to a pixel is NaN and the observer is not above a pole, the pixel is not covered by any planet. This does happen: with correctly rounded sine and cosine, the squares of sine and cosine of 8 degrees add up to 1 + 2^-52, so a facula exactly below an observer at latitude 8 degrees makes calc_coverage fail. Without rounding all this is the calculation of the other properties.",
  "all roundings to nearest, sines and cosines of this accuracy, stars, observers, planets, granulation fractions", "rounding errors for all angles; a failure at single points", [H+":get_angle_between", H+":proj_ortho", G+":CoordinateGrid.cos_angle_from_disk_center", T+":Star.add_faculae_to_map", T+":Star.get_transit_mask", T+":Star.calc_coverage", T+":Star.get_mu"])
p("Reports of observers next to each other",
  "Let two observers, at the angle d from each other, look at a star whose temperature map is the same for both (no faculae, for example), with any planets and the same granulation fraction. With L = 1 + |u1| + |u2|, the light that the disk sends to them differs by at most L d, each entry of their reports by at most L d / w, where w is the light that the disk sends to the first of them (the sum over the disk of area, as a part of the whole surface, times cosine times limb darkening), and the brightness computed from the reports by at most L d / w times the spread between the brightest and the faintest temperature of the report. So light curves of rotating stars have no jumps, and a star of uniform brightness has a constant one. In double precision, with cosines as in C128, the brightness computed from the report changes by at most e/(w - e) of that spread, e = 3e-15 L, if e < w; rounding of cosines never makes the report of a star without faculae fail while the planet is behind it (some photosphere being left, or the granules having its temperature).",
  "all stars with limb darkening that is nowhere negative, grids, pairs of observers, planets, granulation fractions and brightness functions", "a bound for all pairs of observers; rounding errors", [T+":Star.calc_coverage", T+":Star.get_mu", T+":Star.ld_mask_for_plotting", T+":Star.get_jacobian", G+":CoordinateGrid.cos_angle_from_disk_center"])
p("Ageing faculae in double precision",
  "Let every operation of ageing a facula round to double precision, with an exponential and a logarithm that are off by at most one part in 2^51 before they round. After n steps (up to 10^12) that last T together, up to 125 lifetimes, the radius of a facula is that of C29, R exp(-2|T - t_peak|/lifetime) if it was growing and r exp(-2T/lifetime) if not, up to a relative error of e = 1e-14 (n + 2T/lifetime + ln(R/r) + 2) (without the logarithm if it was not growing), and the facula stops growing at the peak up to e lifetimes. So two ways of slicing the same time give radii that agree to 3e. Whatever the times (up to 2^300) and however many, the radius is a number from 0 to R (1 + 1e-12), never smaller than at the start while the facula grows; it never decreases while the facula grows, never increases afterwards, and the facula never grows again.",
  "all roundings to nearest, exponentials and logarithms of this accuracy, faculae with radii and lifetimes from 2^-300 to 2^300, sequences of times", "rounding errors over arbitrarily many steps", [F+":Facula.age"])
p("Ageing spots in double precision",
  "Let every operation of ageing a spot round to double precision, with exp and log as in C130. Let a growing spot have a growth rate g from 2^-20 to 2^20 per day, tau = ln(1+g), and area A of at most M. After n steps (up to 10^12) that last T together, until the spot is used up (W (T - t_max) <= M), with e = 1e-14 (n + ln(M/A) + (ln(M/A) + 1)/tau + 2): if it still grows, its area is A (1+g)^T up to the relative error e and T <= t_max + e/tau; if not, its area is M - W (T - t_max) up to e (M + W/tau) and T >= t_max - e/tau, where t_max = ln(M/A)/tau as in C13. A spot that does not grow has the area A - W T up to 1e-15 n M until it is used up. In any case the area is at most M (1 + 1e-12), it never decreases while the spot grows, never increases to more than the larger of itself and 0 afterwards, and the spot never grows again. A spot whose growth rate is positive but below 2^-53 per day keeps its area forever and counts as growing: its growth is lost in rounding.",
  "all roundings to nearest, exponentials and logarithms of this accuracy, spots with areas from 2^-300 to 2^300, sequences of times", "rounding errors over arbitrarily many steps", [S+":StarSpot.age"])
p("Stars from what is written",
  "Whatever grid_params or gridmaker are given to StarSpot, Facula, their collections and the generators, or left out there, as long as these parts can be made: Star(...) gives the same star, or raises the same exception, and with grid_params that are sizes of at least 0 it is the star on that grid with all distances computed on it, to which the other properties apply. A gridmaker is taken as it is and grid_params is then not looked at. grid_params that is neither an integer nor a tuple of at most two integers raises TypeError everywhere. A spot, a collection with a spot or a star with a spot on a rectangular grid with a negative size raises ValueError, a spot on the base class NotImplementedError; faculae and generators accept any grid. FaculaGenerator raises, in this order, TypeError for a coverage that is not a number, NotImplementedError for 'solar', ValueError for an unknown distribution, and then TypeError for the grid. What is left out: a star with nothing but its required arguments lies on a spiral grid of 1000 points, never gets new spots, faculae, flares or granules, and its brightness at the cosine mu is mu times that of the centre; a spot grows by 52% per day to its maximum, then loses 10.89 millionths of the hemisphere per day.",
  "all arguments of all constructors, all lists of spots and faculae", "all combinations of arguments, given or left out", [S+":StarSpot.__init__", S+":SpotCollection.__init__", S+":SpotGenerator.__init__", F+":Facula.__init__", F+":FaculaCollection.__init__", F+":FaculaGenerator.__init__", T+":Star.__init__"])
p("Faculae kept and removed in double precision",
  "Let ageing round as in C130, and e**2 be known up to the relative error 2^-50. A collection of faculae is aged step by step, up to 10^9 steps that last T together. What it then holds are some of its faculae, in the same order, each aged as if it were alone (C130), on the same grid. A facula is held if T <= D - e L and is not held if there is at least one step and T >= D + e L, where L is its lifetime, e = 1e-14 (n + 2T/L + ln(R/r) + 2) with its radius r and its maximal radius R, and D is the time at which, without rounding, its radius has decayed to R/e**2: L/2 ln(R/r) + L if it grows, L (1 - ln(R/r)/2) if not. So how the time is cut into steps, and rounding, matter only to faculae within e L of that time.",
  "all roundings to nearest, exponentials, logarithms and e**2 of this accuracy, collections of faculae with radii and lifetimes from 2^-300 to 2^300, sequences of times of at most 125 lifetimes together", "rounding errors over arbitrarily many steps at a threshold", [F+":FaculaCollection.age", F+":FaculaCollection.clean_faclist", F+":Facula.age"])
p("Spots kept and removed in double precision",
  "Let ageing round as in C131. A collection of spots is aged step by step, up to 10^12 steps (n) that last T days together. No step raises, and what it then holds are some of its spots, in the same order, each aged as if it were alone (C131), on the same grid. A spot that grows at first is held as long as the area M - W (T - t_max) that the exact law leaves is more than E = e (M + W/tau), with e, tau and t_max as in C131, and is not held if there is at least one step and that area is -E or less. A spot of area A that does not grow is held as long as A - W T is more than 1e-15 n M, and is not held if there is at least one step and W T - A is at least 1e-15 n M.",
  "all roundings to nearest, exponentials and logarithms of this accuracy, collections of spots with areas from 2^-300 to 2^300 and growth rates from 2^-20 to 2^20 per day, sequences of times", "rounding errors over arbitrarily many steps at a threshold", [S+":SpotCollection.age", S+":SpotCollection.clean_spotlist", S+":StarSpot.age"])
