#!/usr/bin/env python3
"""Generates properties.jsonl (kept as a script so that the list is easy to extend)."""
import json, os
P=[]
def p(title, statement, quantifier, why, anchors):
    P.append(dict(id="C%02d"%(len(P)+1), title=title, statement=statement, quantifier=quantifier,
                  why_tests_cant=why, anchors=anchors))
G="vspec_vsm/coordinate_grid.py"; H="vspec_vsm/helpers.py"; S="vspec_vsm/spots.py"; F="vspec_vsm/faculae.py"
L="vspec_vsm/flares.py"; X="vspec_vsm/xoflares.py"; N="vspec_vsm/granules.py"; T="vspec_vsm/star.py"

p("Rectangular grid areas are a partition of the sphere",
  "For RectangularGrid(nlat,nlon) with nlat>=3 and nlon>=1, `area` has one finite entry per grid point, every entry is >=0, is proportional to the cosine of that point's latitude (so zero exactly on the two polar rows) and the entries sum to 1. With nlat=1 every entry is NaN.",
  "all grid sizes nlat, nlon", "tests use a handful of sizes; the claim is about every size", [G+":RectangularGrid._area", G+":CoordinateGrid.area"])
p("Rectangular grid points",
  "`oned()` of RectangularGrid(nlat,nlon), nlat>=2: latitudes start at -90 deg, end at +90 deg and consecutive ones differ by exactly `dlat`; longitudes start at 0, consecutive ones differ by `dlon`, all stay in [0,360) and the last one is exactly one step short of 360. `grid()` pairs every longitude with every latitude, longitude-major, and `zeros()` has exactly the same shape.",
  "all nlat>=2, nlon>=1", "off-by-one errors in spacing appear only at particular sizes", [G+":get_lat_points", G+":get_lon_points", G+":RectangularGrid._grid", G+":RectangularGrid.dlat", G+":RectangularGrid.dlon", G+":RectangularGrid._zeros"])
p("Spiral grid points are distinct, symmetric and equal-area",
  "For SpiralGrid(n), n>=1: `grid()` yields n points, latitudes strictly decreasing and strictly inside (-90,90) deg, symmetric about the equator, with sin(latitude) evenly spaced by 2/n (equal-area bands); longitudes lie in [0,2pi) and are the golden-angle multiples modulo 2pi; `area` is 1/n everywhere and sums to 1. For n=0, `area` raises ZeroDivisionError.",
  "all n", "universally quantified over grid size", [G+":SpiralGrid._grid", G+":SpiralGrid._area", G+":SpiralGrid._zeros"])
p("Grid construction dispatch",
  "CoordinateGrid.new(int n) gives a spiral grid with n points, new((nlat,nlon)) with two ints gives the rectangular grid of that size, shorter tuples of ints are filled up with the defaults (500,1000), and every other argument (float, string, tuple longer than two, tuple with a non-int) raises TypeError; no other outcome exists.",
  "all arguments", "input classes are unbounded", [G+":CoordinateGrid.new", G+":RectangularGrid.__init__", G+":SpiralGrid.__init__"])
p("Grid equality",
  "Two rectangular grids compare equal iff both sizes agree; two spiral grids iff the point counts agree; spiral==rectangular is False while rectangular==spiral raises TypeError (so == is not symmetric); comparing any grid with a non-grid raises TypeError.",
  "all pairs of operands", "all pairs", [G+":RectangularGrid.__eq__", G+":SpiralGrid.__eq__"])
p("Cosine of angle from disk centre",
  "`cos_angle_from_disk_center(lat0,lon0)` equals, at every grid point, the dot product of the unit vectors of the two directions; hence it is in [-1,1], equals 1 at the sub-observer point, changes sign when the observer moves to the antipode, and is unchanged when longitudes change by whole turns.",
  "all observers, all grid points, both grid kinds", "identity over a continuum of angles", [G+":CoordinateGrid.cos_angle_from_disk_center", T+":Star.get_mu"])
p("Angle between two coordinates",
  "`get_angle_between` returns the angle in [0,pi] between the two unit vectors, is symmetric, is zero iff the two directions coincide, and agrees with the haversine distance that StarSpot and Facula use to decide which pixels they cover.",
  "all pairs of coordinates", "identity over a continuum", [H+":get_angle_between", S+":StarSpot.set_gridmaker", F+":Facula._r"])
p("Orthographic projection: radius, visibility and side",
  "`proj_ortho` returns NaN exactly for points on the far hemisphere (mu<0); for every other point x^2+y^2 = 1-mu^2 (projected distance is the sine of the angle from disk centre), in particular all points land in the unit disk, and for an observer not exactly at a pole x never lies on the wrong side: x*sin(lon-lon0)>=0 (x may be 0 after the 4-decimal rounding).",
  "all centres and points", "quantifies over the sphere x sphere", [H+":proj_ortho"])
p("Orthographic projection: accuracy and the pole-centred case",
  "For an observer not exactly at a pole, `proj_ortho`'s y differs from the exact orthographic y by at most 5e-5*sin(a) (the 4-decimal rounding), and is exact along the central meridian. For an observer exactly at a pole the result is the exact projection for central longitude 0: lon0 is ignored, so for lon0 not a multiple of 360 deg the result disagrees with the exact projection.",
  "all centres and points", "error bound over a continuum", [H+":proj_ortho"])
p("Circle overlap fraction: total function with values in [0,1]",
  "`calc_circ_fraction_inside_unit_circle(x,y,r)` raises ValueError iff r>1, whatever x and y are, and no other exception; for 0<=r<=1 it returns a finite number in [0,1] (never NaN), which is 1 iff the circle lies inside the unit disk and 0 when it lies outside, and depends only on the distance sqrt(x^2+y^2) and r.",
  "all x,y,r", "domain errors of arccos/sqrt occur only at isolated boundaries", [H+":calc_circ_fraction_inside_unit_circle"])
p("Circle overlap fraction is geometrically right and monotone",
  "For 0<r<=1 the returned fraction times pi*r^2 is the area of the intersection of the two discs, it is non-increasing in the distance between centres, and it joins continuously with the 1 and 0 branches at distance 1-r and 1+r.",
  "all distances and radii", "integral identity", [H+":calc_circ_fraction_inside_unit_circle"])
p("Temperature rounding and clipping",
  "`round_teff` returns an integer within 1/2 of its argument with ties going to the even integer, is idempotent and monotone; `clip_teff` returns a value in [2300,3900] K, leaves values in that range unchanged, is idempotent and monotone.",
  "all temperatures", "all reals", [H+":round_teff", H+":clip_teff", "vspec_vsm/config.py:grid_teff_bounds"])
p("Spot area follows the documented law for one step",
  "A growing spot with 0<A<=Amax and growth rate g>0, aged by t>=0: if it cannot reach Amax within t its area is A*(1+g)^(t/day) and it keeps growing; otherwise it stops growing and its area is max(0, Amax - W*(t - t_max)) with t_max = ln(Amax/A)/ln(1+g) days. A non-growing spot loses W*t. A growing spot with g=0 never changes. Spots straight from the constructor obey this with the areas, rates and direction they were given, and keep their position and temperatures.",
  "all spot states and time steps", "real-analysis law over all parameters", [S+":StarSpot.age"])
p("Spot ageing does not depend on how time is sliced",
  "For a collection of spots with 0<A<=Amax, g>=0, W>=0: ageing by any sequence of non-negative steps leaves exactly the same surviving spots, with the same areas and growth flags, as ageing once by the total time (stated for strictly positive intermediate results; the exact single-spot law may differ only for spots that are already dead and removed).",
  "all step sequences", "quantifies over all histories", [S+":StarSpot.age", S+":SpotCollection.age", S+":SpotCollection.clean_spotlist"])
p("Spot area invariants over any history",
  "Under any sequence of ages with non-negative steps, every spot in a collection keeps 0<A<=Amax (or is static), Amax never changes, a spot that stopped growing never grows again and from then on its area never increases. StarSpot.age called directly (outside a collection) can produce a negative area, because the guard compares the decay with Amax instead of the current area.",
  "all histories", "quantifies over all histories", [S+":StarSpot.age", S+":SpotCollection.age"])
p("Spot death time",
  "A newborn growing spot (0<A<=Amax, g>0, W>0) is removed from its collection at the first age() call at which total elapsed time reaches ln(Amax/A)/ln(1+g) + Amax/W days, and not before, whatever the step sizes.",
  "all step sequences and spot parameters", "needs the whole history", [S+":SpotCollection.age", S+":SpotCollection.clean_spotlist"])
p("clean_spotlist removes exactly the dead spots, in order",
  "After clean_spotlist (and therefore after age) the collection holds exactly the spots that are growing or have positive (or NaN) area, in the original order; nothing else is dropped or duplicated.",
  "all collections", "all lists", [S+":SpotCollection.clean_spotlist"])
p("Spot angular radius encloses the spot's area",
  "For 0<=A<=4*pi*R^2, `angular_radius` theta is in [0,180] deg and the spherical cap of that radius has area exactly A (2*pi*R^2*(1-cos theta)=A); it is strictly increasing in A. For A>4*pi*R^2 or A<0 the radius is NaN and the spot covers no pixel at all.",
  "all areas and stellar radii", "continuum of inputs", [S+":StarSpot.angular_radius", S+":StarSpot.map_pixels"])
p("Spot map assigns the coolest temperature",
  "If every spot's umbra is no hotter than its penumbra, `SpotCollection.map_pixels` gives every pixel the minimum of the stellar temperature and the temperatures of all umbrae/penumbrae covering it; so the order of the spots does not matter. In general every pixel gets the stellar temperature or that of a region covering it and never more than the stellar temperature; with an umbra hotter than its penumbra the result can depend on spot order and exceed the coolest covering temperature.",
  "all spot lists, all pixels", "all orders and overlaps", [S+":SpotCollection.map_pixels", S+":StarSpot.map_pixels"])
p("Umbra lies inside the penumbra",
  "For area ratio >=1 every umbra pixel is a penumbra pixel; a spot covers a pixel iff the angle between its centre and the pixel is less than its angular radius (umbra: radius/sqrt(ratio)). generate_spots only guarantees ratio>0, and for a ratio in (0,1) the umbra is larger than the spot.",
  "all spots, all pixels", "continuum", [S+":StarSpot.map_pixels", S+":SpotGenerator.generate_spots"])
p("Spot coverage is the area fraction of the union of spots",
  "`SpotCollection.get_coverage` equals the summed area of pixels lying in at least one spot divided by the total area; it lies in [0,1], is 0 with no spots, is independent of spot order and never decreases when a spot is added.",
  "all collections and grids", "all lists", [S+":SpotCollection.get_coverage"])
p("Adding a spot and the grid it was built on",
  "set_gridmaker (collection or spot) makes every spot's precomputed distances match the new grid, so map_pixels succeeds. add_spot only changes the spot's `gridmaker` attribute and leaves its distances on the old grid: a spot built on another grid makes map_pixels raise, or silently broadcast to the wrong pixels when the shapes are compatible; a spot built on the same grid is always fine. The constructor of a collection puts all spots on the collection's grid.",
  "all grids", "all pairs of grids", [S+":SpotCollection.add_spot", S+":SpotCollection.set_gridmaker", S+":StarSpot.set_gridmaker", T+":Star.add_spot"])
p("Disk fraction covered by one spot",
  "`surface_fraction` is >=0, is 0 when the whole spot is behind the limb, never decreases when the spot's area grows, for every number n of integration points; its value is the n-point trapezoid rule for (1/2pi) * integral over [-90,90] deg of cos(t) * (width at t of the disc of the spot's angular radius centred at the spot's angular distance from the disk centre), and it converges to that integral as n grows.",
  "all spots, observers and point counts", "continuum", [S+":StarSpot.surface_fraction"])
p("Isotropic coordinates are uniform on the sphere",
  "For uniform draws in [0,1), 'iso' latitudes lie in [-90,90) deg and longitudes in [0,360); a draw x gives a latitude <= phi iff x <= (1+sin phi)/2, i.e. the latitude distribution is area-uniform. (SpotGenerator, FaculaGenerator and FlareGenerator alike.) Unknown distributions raise ValueError; 'solar' latitudes are not bounded by 90 deg.",
  "all draws", "all random outcomes", [S+":SpotGenerator.get_coordinates", F+":FaculaGenerator.get_coords", L+":FlareGenerator.gen_coords"])
p("generate_spots produces exactly n well-formed spots",
  "generate_spots(n) returns exactly n spots, each growing, with area = init_area, positive Amax, positive area ratio (whatever number of redraws), the generator's temperatures and rates, and living on the generator's grid (distances included).",
  "all n and all random outcomes, any number of rejection rounds", "random outcomes and loop counts unbounded", [S+":SpotGenerator.generate_spots"])
p("Expected number of spots to birth",
  "get_n_spots_to_birth is linear in time and in coverage and additive over consecutive intervals; it is 0 for SpotGenerator.off(), so an off generator never births; with growth_rate=0 and decay_rate>0 it is NaN and birth_spots raises ValueError even for coverage 0.",
  "all generators and durations", "continuum and special values", [S+":SpotGenerator.get_n_spots_to_birth", S+":SpotGenerator.birth_spots", S+":SpotGenerator.off"])
p("Mean lifetime and mean area versus the actual spot law",
  "For a dynamic generator, mean_lifetime = Amean/W + ln(Amean/A0)/g and mean_area = (Amean/g + A0/g + Amean^2/(2W))/mean_lifetime. The actual life of a spot with Amax=Amean is Amean/W + ln(Amean/A0)/ln(1+g) days, strictly longer whenever A0<Amean, so such a spot still has positive area at age mean_lifetime; and the integral of an e^{gt} growth followed by linear decay is (Amean-A0)/g + Amean^2/(2W), i.e. mean_area is too large by 2*A0/g/mean_lifetime.",
  "all parameters", "integral identity", [S+":SpotGenerator.mean_lifetime", S+":SpotGenerator.mean_area"])
p("generate_mature_spots meets its coverage target minimally",
  "For a valid generator, generate_mature_spots(coverage,R) raises ValueError iff coverage is outside [0,1]; otherwise whenever it returns, the summed solid angle pi*theta^2 of the returned spots is >= 4*pi*coverage (or the last spot is larger than the star) while without the last spot it is below target; for coverage 0 it returns no spots. Each spot is a fresh one, static: with area init+u*(Amax-init), dynamic: aged by u*mean_lifetime. It returns within a computable number of rounds when radii are bounded below by a positive angle, and never when every drawn spot has zero area.",
  "all random outcomes, any number of iterations", "unbounded loop over random draws", [S+":SpotGenerator.generate_mature_spots"])
p("Facula radius law and slicing independence",
  "For 0<r<=rmax and lifetime>0, ageing a facula by t1 then t2 equals ageing it by t1+t2, for all non-negative t1,t2 and any finite slicing; the radius is rmax*exp(-2*|t-t_peak|/lifetime) with t_peak = ln(rmax/r)*lifetime/2, so 0<r<=rmax always.",
  "all step sequences", "all histories", [F+":Facula.age"])
p("Facula lifetime",
  "A facula born by generate_faculae (radius rmax/e^2, growing) is kept by its collection as long as the total age is < 2*lifetime and is removed by the first age() call at which the total reaches 2*lifetime; clean_faclist removes exactly the non-growing faculae with radius <= rmax/e^2, preserving order.",
  "all step sequences", "all histories", [F+":FaculaCollection.age", F+":FaculaCollection.clean_faclist", F+":FaculaGenerator.generate_faculae"])
p("Facula wall/floor areas partition the projected area",
  "For every facula with distinct rounded wall/floor temperatures and every angle with cos(angle)<>0, effective_area returns exactly two entries whose areas sum to pi*r^2*cos(angle); the fractions lie in [0,1] and sum to 1; below the minimum radius everything is wall; the wall fraction is 0 at disk centre, non-decreasing with angle in [0,90) deg and reaches 1 iff depth*tan(angle) >= 2*radius.",
  "all faculae, all angles", "continuum", [F+":Facula.effective_area", F+":Facula.fractional_effective_area"])
p("Facula temperature guard",
  "effective_area raises ValueError iff wall and floor dteff are exactly equal; when they differ but round to the same integer the result has a single entry and Star.add_faculae_to_map (hence calc_coverage) raises ValueError if the facula covers any pixel.",
  "all faculae", "continuum", [F+":Facula.effective_area", T+":Star.add_faculae_to_map", H+":round_teff"])
p("Facula mean area versus the actual facula law",
  "FaculaGenerator.mean_area = pi*r0^2*(1-e^-2)/2, whereas the time average of pi*r(t)^2 over the life of a facula with peak radius r0 is pi*r0^2*(1-e^-4)/4, strictly smaller: the documented 'time-averaged area' is overestimated.",
  "all peak radii and lifetimes", "integral identity", [F+":FaculaGenerator.mean_area"])
p("Expected number of faculae",
  "get_n_faculae_expected is linear in time and coverage, additive over consecutive intervals, zero for FaculaGenerator.off(); the constructor rejects 'solar' (NotImplementedError), unknown distributions (ValueError) and non-number coverage (TypeError).",
  "all generators and durations", "continuum", [F+":FaculaGenerator.get_n_faculae_expected", F+":FaculaGenerator.__init__", F+":FaculaGenerator.off"])
p("generate_faculae produces exactly n well-formed faculae",
  "generate_faculae(n) returns exactly n faculae, growing, radius = rmax/e^2, rmax>0, lifetime>0, on the generator's grid, and with non-negative sigmas a facula with larger rmax never has a shorter lifetime.",
  "all n and random outcomes", "all random outcomes", [F+":FaculaGenerator.generate_faculae"])
p("Adding faculae to a collection",
  "add_faculae appends the given faculae in order and puts each on the collection's grid, except that adding a rectangular-grid facula to a spiral-grid collection raises TypeError (grid equality is partial) and leaves the collection unchanged. The constructor of a collection puts all faculae on the collection's grid.",
  "all collections and faculae", "all grids", [F+":FaculaCollection.add_faculae", G+":RectangularGrid.__eq__"])
p("Flare energy is conserved by the light curve",
  "For fwhm>0, Teff>0: the integral over all time of a flare's areacurve, times sigma_sb*Teff^4, equals the flare's energy; equivalently flareintegral(fwhm,ampl) is exactly the integral of the flare model over its support.",
  "all flares", "improper integral identity", [X+":_flareintegralnp", X+":_flaremodelnp", L+":StellarFlare.calc_peak_area", L+":StellarFlare.areacurve"])
p("Flare light-curve shape",
  "The flare area is 0 outside (tpeak-fwhm, tpeak+20*fwhm), strictly positive inside, never exceeds the peak area, and equals the peak area exactly at tpeak (with a downward jump just after).",
  "all times and flares", "continuum", [X+":_flaremodelnp", L+":StellarFlare.areacurve"])
p("Time-window selection never drops a contributing flare",
  "get_flares_in_timeperiod(t0,t1) keeps flares in order, and every flare it drops has zero area at every time in [t0,t1]; the kept ones are exactly those with peak+20*fwhm>t0 and peak-10*fwhm<t1.",
  "all collections and windows", "all flares and windows", [L+":FlareCollection.mask", L+":FlareCollection.get_flares_in_timeperiod"])
p("Flare visibility",
  "get_visible_flares_in_timeperiod returns exactly the selected flares whose position is strictly in the observer's hemisphere (angle < 90 deg), in order; a flare is never visible to both of two antipodal observers.",
  "all flares and observers", "continuum", [L+":FlareCollection.get_visible_flares_in_timeperiod"])
p("Flare peak times",
  "get_peaks(n), n>=1, for all random outcomes: never raises, returns exactly n times, non-decreasing and non-negative; the internal consistency check never fires and at least one single-flare cluster is always appended. It is not bounded by the observation time.",
  "all n and all random outcomes", "all random outcomes", [L+":FlareGenerator.get_peaks"])
p("Flare energy distribution",
  "For alpha<0 and finite Emin>0: quantile_func maps [0,1) into [Emin,inf), is strictly increasing, is the inverse of cdf, rejects arguments outside [0,1) with ValueError; frequency_greater_than(E)/frequency_greater_than(Emin) = 1-cdf(E); frequency is strictly decreasing in E.",
  "all energies and draws", "continuum", [L+":FlareGenerator.quantile_func", L+":FlareGenerator.cdf", L+":FlareGenerator.frequency_greater_than"])
p("Flare energy pdf",
  "The value computed by pdf is the derivative of cdf, but the method cannot return it: its unit is 1/energy, which never converts to dimensionless, so every call raises a unit error.",
  "all energies and exponents", "continuum", [L+":FlareGenerator.pdf"])
p("Flare series",
  "generate_flare_series returns exactly as many flares as the Poisson draw, each with energy >= Emin and fwhm>0, energies being the quantiles of the power law, coordinates area-uniform on the sphere and peak times non-negative and in non-decreasing order; FlareGenerator.off() always yields the empty list; before get_flares_over_observation is called, Star.get_flare_int_over_timeperiod raises AttributeError.",
  "all random outcomes", "all random outcomes", [L+":FlareGenerator.generate_flare_series", L+":FlareGenerator.off", T+":Star.get_flares_over_observation", T+":Star.get_flare_int_over_timeperiod"])
p("Flare time-area over a window",
  "get_flare_integral_in_timeperiod returns one non-negative entry per visible flare, in order, with that flare's Teff; for windows shorter than 20 minutes every entry is 0 even for a flare at its peak; for tfinish at least 10 minutes before tstart it raises ValueError.",
  "all collections and windows", "continuum", [L+":FlareCollection.get_flare_integral_in_timeperiod", L+":StellarFlare.get_timearea"])
p("Multi-flare light curve is additive",
  "The light curve of several flares is the pointwise sum of the single-flare curves: order of flares is irrelevant, concatenating flare lists adds the curves; with `texp` given the result has one value per time, the mean over an odd number of samples; and if fewer fwhms/ampls than peaks are given it raises IndexError. A warning is issued exactly if `texp` is given.",
  "all flare lists, times and oversampling factors", "all lists", [X+":multiflaremodelnp", X+":get_light_curvenp"])
p("Granulation coverage is a fraction",
  "save_cast_coverage maps every non-NaN value into [0,1], leaves values in [0,1] unchanged and is idempotent; Star.get_granulation_coverage returns, for every Gaussian-process sample, one value per time, each in [0,1] and never NaN, all zero when dteff=0; when dteff<>0 and the mean is 0 it raises KeyError whatever the amplitude.",
  "all samples", "all random outcomes", [N+":save_cast_coverage", N+":Granulation.get_coverage", T+":Star.get_granulation_coverage"])
p("Granulation kernel",
  "The granulation kernel is symmetric, stationary, has value scale*freq/sqrt(2) at lag 0 and never exceeds that in absolute value (for scale>=0, period>0), and tends to 0 at large lags.",
  "all lags", "continuum", [N+":GranulationKernel.evaluate"])
p("Limb-darkening and projection weights",
  "For every mu in [-1,1]: both limb-darkening masks vanish for mu<0; the plotting mask is 1 at disk centre; ld_mask with u1=u2=0 is mu on the visible side (Lambertian); with u1,u2>=0 and u1+u2<=1 the plotting mask lies in [0,1] and is non-decreasing in mu; the projected-area coefficient is max(mu,0).",
  "all mu and coefficients", "continuum", [T+":Star.ld_mask", T+":Star.ld_mask_for_plotting", T+":Star.area_projection_coefficient"])
p("Coverage fractions sum to one",
  "If distinct surface temperatures have distinct 2-decimal labels, some quiet photosphere pixel exists (or granulation has dteff=0) and the limb-darkened projected area is positive, then the `total` dictionary of calc_coverage sums to exactly 1 for every granulation fraction, and with non-negative limb darkening and granulation fraction in [0,1] every entry is in [0,1].",
  "all stars, observers, spot/facula configurations", "all configurations", [T+":Star.calc_coverage"])
p("Each coverage entry is the weighted share of its temperature",
  "Under the same conditions, with granulation fraction 0, each entry of `total` is the sum of limb-darkened projected area of pixels of that temperature over the total, hence pixels on the far side contribute nothing; `covered` is the same sum weighted by the planet's transit mask, which lies in [0,1], so 0<=covered<=total entrywise.",
  "all stars and observers", "all configurations", [T+":Star.calc_coverage"])
p("Coverage dictionary failure modes",
  "calc_coverage raises KeyError when no pixel has the photosphere's label and granulation dteff is non-zero; when two distinct temperatures share a 2-decimal label the later one overwrites the earlier one and the total falls short of 1 by at least the share of the overwritten one.",
  "all stars with the ingredients of a report, observers, planets and granulation fractions", "needs rare coincidences", [T+":Star.calc_coverage"])
p("Granulation moves photosphere weight only",
  "calc_coverage with granulation fraction f moves exactly the share f of the photosphere entry to the entry of temperature teff-dteff, in both dictionaries, and changes no other entry.",
  "all configurations and fractions", "all configurations", [T+":Star.calc_coverage"])
p("Facula painting partitions each facula",
  "add_faculae_to_map leaves every pixel outside all faculae at its spot-map temperature; each pixel of a facula that no later facula covers is painted with that facula's clipped wall or floor temperature, wall where mu is at most the percentile border and floor above it, so wall pixels are the ones nearest the limb.",
  "all stars, faculae and observers", "all configurations", [T+":Star.add_faculae_to_map"])
p("Number of wall pixels of a facula",
  "With n covered pixels of distinct mu and wall fraction q in [0,1], exactly floor((n-1)*q)+1 pixels are painted as wall: all of them for q=1, and always at least one even when q=0 (a facula at disk centre with no visible wall still shows a wall pixel).",
  "all pixel sets and fractions", "order statistics for all lists", [T+":Star.add_faculae_to_map"])
p("Clipping of facula temperatures",
  "Every temperature painted by a facula lies in [2300,3900] K regardless of the star: for stars hotter than 3900 K even the hot wall is painted cooler than the photosphere.",
  "all stars and faculae", "continuum", [T+":Star.add_faculae_to_map", H+":clip_teff"])
p("Transit/eclipse case split",
  "get_transit_mask: if the planet's projected distance exceeds 1+2*rp the mask is all zero and the planet fraction 1; if the planet is behind the star (cos phase>0) the mask is all zero and the planet fraction is 1 minus the part of the planet's disc hidden by the star, in [0,1] for planets no larger than the star (0 when fully hidden, 1 when clear) and ValueError for larger planets; otherwise the fraction is 1.",
  "all orbits, phases and radii", "continuum", [T+":Star.get_transit_mask", T+":Star.get_pl_frac"])
p("Transit mask values",
  "During a transit the mask is 0 for every pixel on the far side and for every pixel whose centre is farther than rp+2*sigma from the planet's centre, exactly 1 for every pixel deeper than 2*sigma inside the planet's disc, always within [0,1], and 'NaN in covered_value' is never raised. For the pixels in between it is the product trapezoid rule, on 100x100 points out to 3 sigma, of a normalised Gaussian over the planet's disc.",
  "all grids, observers and planets", "continuum, special values at the poles and limb", [T+":Star.get_transit_mask"])
p("Constructing a Star unifies all grids",
  "After Star(...) returns, the star, both collections, every spot and facula in them, and both generators refer to the same grid (the one described by grid_params), spots' distances included; this stays true under any sequence of age, birth_spots, birth_faculae and generate_mature_spots.",
  "all histories", "all operation sequences", [T+":Star.__init__", T+":Star.age", T+":Star.birth_spots", T+":Star.birth_faculae", T+":Star.generate_mature_spots"])
p("average_teff",
  "Star.average_teff cannot return: calc_coverage's keys are formatted strings, so the first dictionary entry raises TypeError (whenever calc_coverage itself returns).",
  "all stars and observers", "all configurations", [T+":Star.average_teff", T+":Star.calc_coverage"])
p("Resampling a spiral grid for display",
  "SpiralGrid.display_grid returns at every output point a weighted mean of the data with strictly positive weights: it lies between the minimum and maximum of the data and reproduces constant data exactly; it rejects data of the wrong length with ValueError.",
  "all data and sizes", "continuum", [G+":SpiralGrid._display_grid", G+":CoordinateGrid.display_grid"])
p("Displaying a rectangular grid",
  "RectangularGrid.display_grid(nlat,nlon,data) returns data unchanged iff data has shape (nlon,nlat) and raises TypeError otherwise; the check is against the arguments, not the grid, so with arguments different from the grid's own size it returns coordinate arrays whose lengths disagree with the data.",
  "all sizes", "all sizes", [G+":RectangularGrid._display_grid"])
json_path=os.path.join(os.path.dirname(__file__),"..","properties.jsonl")
exec(open(os.path.join(os.path.dirname(__file__),"more_props.py")).read()) if os.path.exists(os.path.join(os.path.dirname(__file__),"more_props.py")) else None
with open(json_path,"w") as f:
    for q in P: f.write(json.dumps(q)+"\n")
print(len(P))
