{"id": "C01", "title": "Farm field is the superposition of its turbines", "statement": "WindFarm.velocity_field returns, at every control point, the sum of what every turbine's compute_u(only_ind=True) returns there, plus U0 when U0 is given; an empty farm returns zeros (or U0).", "quantifier": "all farms (any number of turbines, any states), all control points, all option values", "why_tests_cant": "the number of turbines, their states and the points are unbounded; tests only sample small farms", "anchors": ["wiz/WindFarm.py:WindFarm.velocity_field"]}
{"id": "C02", "title": "Farm concatenation adds induction fields", "statement": "The induction field of the farm A+B equals the field of A plus the field of B, and reordering the turbines does not change it.", "quantifier": "all pairs of farms of distinct turbine objects, all permutations, all points", "why_tests_cant": "permutations and farm sizes are unbounded", "anchors": ["wiz/WindFarm.py:WindFarm.velocity_field"]}
{"id": "C03", "title": "A farm only ever holds wind turbines", "statement": "Whatever sequence of list operations is applied to a WindFarm, every element is a WindTurbine, and a rejected append leaves the farm unchanged.", "quantifier": "all finite sequences of constructor/append/extend/insert/+=/item-assignment operations", "why_tests_cant": "an invariant over all histories of mutations", "anchors": ["wiz/WindFarm.py:WindFarm.__init__", "wiz/WindFarm.py:WindFarm.append"]}
{"id": "C04", "title": "Layout setter/getter round trip", "statement": "After farm.layout=L (with L of shape nWT x 3) farm.layout equals L, every turbine keeps all attributes other than its hub position, objects outside the farm are untouched; a wrongly shaped L raises and changes nothing.", "quantifier": "all farms, all layouts, including farms that contain the same turbine object twice", "why_tests_cant": "aliasing between list entries and arbitrary sizes", "anchors": ["wiz/WindFarm.py:WindFarm.layout", "wiz/WindTurbine.py:WindTurbine.update_position"]}
{"id": "C05", "title": "gridLayout places every turbine exactly where documented", "statement": "gridLayout(nx,dx,nz,dz,h,mirror) returns nz*nx (twice with mirror) turbines; entry i*nx+j is at x=(j-floor(nx/2))*dx, z=i*dz, y=h, and with mirror entry nz*nx+i*nx+j is at the same x,z and y=-h.", "quantifier": "all grid sizes, spacings, hub heights", "why_tests_cant": "index arithmetic must hold for every nx,nz and every (i,j)", "anchors": ["wiz/WindFarm.py:gridLayout"]}
{"id": "C06", "title": "gridLayout positions are pairwise distinct", "statement": "With non-zero spacings (and non-zero hub height when mirrored) no two turbines returned by gridLayout share the same position.", "quantifier": "all grid sizes and pairs of indices", "why_tests_cant": "pairs of indices over unbounded grids", "anchors": ["wiz/WindFarm.py:gridLayout"]}
{"id": "C07", "title": "gridLayout works with its documented defaults", "statement": "gridLayout called without zSpacing (its default is None) returns a layout.", "quantifier": "all nx, nz", "why_tests_cant": "a default-argument path that fails for all non-empty grids", "anchors": ["wiz/WindFarm.py:gridLayout"]}
{"id": "C08", "title": "Constant-CT grid farm equals the sum of single cylinders", "statement": "windfarm_gridlayout_CTconst returns the sum over the grid positions of the field of one cylinder of intensity -U0*(1-sqrt(1-CT)) and radius R centred there; it is finite for CT<=1.", "quantifier": "all grids, all CT<=1, all control points", "why_tests_cant": "unbounded grids and points", "anchors": ["wiz/WindFarm.py:windfarm_gridlayout_CTconst", "wiz/VortexCylinder.py:vcs_tang_u"]}
{"id": "C09", "title": "compute_u answers for the current yaw and wind (history independence)", "statement": "What compute_u returns depends only on the current yaw, wind, position and loading, not on earlier calls: a turbine whose yaw/wind was updated after a compute_u answers like a fresh one in the same configuration.", "quantifier": "all histories of updates and queries", "why_tests_cant": "a property of call histories (cached skew angle)", "anchors": ["wiz/WindTurbine.py:WindTurbine.compute_u", "wiz/WindTurbine.py:WindTurbine.update_yaw_pos", "wiz/WindTurbine.py:WindTurbine.update_wind"]}
{"id": "C10", "title": "compute_u is a query", "statement": "compute_u does not change anything the user set: only the cached skew angle may change, and every later call (the same or another) gives the answer it would have given without the first.", "quantifier": "all turbine states, options and points", "why_tests_cant": "frame condition over all attributes and all states", "anchors": ["wiz/WindTurbine.py:WindTurbine.compute_u"]}
{"id": "C11", "title": "update_loading is all-or-nothing", "statement": "If update_loading raises, no attribute of the turbine has changed; if it returns, only gamma_t, gamma_l, Gamma_r, Lambda, r and Ct may have changed.", "quantifier": "all states, all argument combinations, all inner failures", "why_tests_cant": "every failure point inside the call", "anchors": ["wiz/WindTurbine.py:WindTurbine.update_loading"]}
{"id": "C12", "title": "Ct given to the constructor is honoured", "statement": "WindTurbine(R,...,Ct=c) is loaded with thrust coefficient c, as documented.", "quantifier": "all c, all queries", "why_tests_cant": "the argument is silently ignored for all values", "anchors": ["wiz/WindTurbine.py:WindTurbine.__init__"]}
{"id": "C13", "title": "Loading is required before querying", "statement": "compute_u raises if and only if the loading is missing or the requested model cannot handle the configuration (non-VC model with skew, with several cylinders or with longitudinal vorticity; unknown model).", "quantifier": "all reachable turbine states and options", "why_tests_cant": "exhaustive over the state/option product", "anchors": ["wiz/WindTurbine.py:WindTurbine.compute_u"]}
{"id": "C14", "title": "only_ind differs from the full field by the free stream", "statement": "compute_u(only_ind=False) equals compute_u(only_ind=True) plus the turbine's wind vector at every point.", "quantifier": "all turbines, options, points", "why_tests_cant": "all inputs", "anchors": ["wiz/WindTurbine.py:WindTurbine.compute_u"]}
{"id": "C15", "title": "no_wake zeroes the tube and nothing else", "statement": "With no_wake=True the induced velocity is exactly 0 at the points with axial coordinate >= -0.6R and radial distance < 1.001R from the rotor axis, and is unchanged at every other point.", "quantifier": "all turbines, options, points", "why_tests_cant": "all inputs", "anchors": ["wiz/WindTurbine.py:WindTurbine.compute_u"]}
{"id": "C16", "title": "Vorticity components superpose", "statement": "The field with root, tangential and longitudinal components switched on is the sum of the fields of each component alone, and with all off it is zero.", "quantifier": "all turbines, option subsets, points", "why_tests_cant": "all inputs", "anchors": ["wiz/WindTurbine.py:WindTurbine.compute_u"]}
{"id": "C17", "title": "Translation invariance", "statement": "Moving hub and control points by the same vector (no ground effect) leaves the returned velocities unchanged.", "quantifier": "all turbines, all vectors, all points", "why_tests_cant": "all inputs", "anchors": ["wiz/WindTurbine.py:WindTurbine.compute_u"]}
{"id": "C18", "title": "Yaw rotation equivariance", "statement": "Yawing an unskewed turbine and its wind together by an angle rotates the whole field by this angle about the vertical axis through the hub.", "quantifier": "all yaw angles, turbines, points", "why_tests_cant": "all angles", "anchors": ["wiz/WindTurbine.py:WindTurbine.compute_u", "wiz/WindTurbine.py:RotMat_AxisAngle"]}
{"id": "C19", "title": "RotMat_AxisAngle returns rotations", "statement": "For a unit axis the matrix is orthogonal with determinant 1, fixes the axis, turns vectors perpendicular to it by the given angle, angles add under product, and angle 0 gives the identity.", "quantifier": "all unit axes and angles", "why_tests_cant": "continuum of inputs", "anchors": ["wiz/WindTurbine.py:RotMat_AxisAngle"]}
{"id": "C20", "title": "transform_T inverts transform", "statement": "For the cylinder-to-global matrix of any yaw position of a turbine whose shaft and vertical are orthonormal, transform_T undoes transform, both preserve lengths and dot products.", "quantifier": "all yaw angles, orthonormal shaft/vertical, all points", "why_tests_cant": "continuum of inputs", "anchors": ["wiz/WindTurbine.py:transform_T", "wiz/WindTurbine.py:transform", "wiz/WindTurbine.py:WindTurbine.update_yaw_pos"]}
{"id": "C21", "title": "orth_vect returns a unit orthogonal vector", "statement": "orth_vect(u) is a unit vector perpendicular to u for every non-zero u and raises for the zero vector.", "quantifier": "all vectors", "why_tests_cant": "case analysis over all of R^3", "anchors": ["wiz/WindTurbine.py:orth_vect"]}
{"id": "C22", "title": "rotor_disk_points draws the rotor circle", "statement": "Every returned point is at distance R from the hub, in the plane perpendicular to the shaft; the first and last coincide.", "quantifier": "all turbines with a unit shaft (tilted or not), all nP", "why_tests_cant": "all inputs", "anchors": ["wiz/WindTurbine.py:WindTurbine.rotor_disk_points"]}
{"id": "C23", "title": "The turbine's horizontal reference is horizontal", "statement": "The horizontal vector derived from shaft and vertical is a unit vector perpendicular to the vertical, in the plane of shaft and vertical (also for a tilted shaft).", "quantifier": "all shaft/vertical pairs, tilted or not", "why_tests_cant": "continuum of inputs", "anchors": ["wiz/WindTurbine.py:WindTurbine.set_yaw0_coord", "wiz/WindTurbine.py:WindTurbine.yaw_error"]}
{"id": "C24", "title": "yaw_wind recovers the wind angle", "statement": "For a wind of any positive speed blowing at horizontal angle theta in (-pi,pi] (with any vertical component) yaw_wind returns theta.", "quantifier": "all orthonormal frames, speeds, angles", "why_tests_cant": "continuum of inputs", "anchors": ["wiz/WindTurbine.py:WindTurbine.yaw_wind"]}
{"id": "C25", "title": "yaw_error is the yaw relative to the wind", "statement": "For horizontal wind at angle theta and yaw position y, yaw_error equals y-theta reduced to (-pi,pi], including a rotor turned exactly backwards.", "quantifier": "all frames, wind angles, yaw angles", "why_tests_cant": "continuum of inputs", "anchors": ["wiz/WindTurbine.py:WindTurbine.yaw_error"]}
{"id": "C26", "title": "Ground plane is impermeable to the tangential vorticity", "statement": "With ground effect and zero skew the vertical velocity that the tangential vorticity induces on the ground plane y=0 is zero, for every model and any number of cylinders.", "quantifier": "all hub heights, models, numbers of cylinders, points of the plane", "why_tests_cant": "continuum of inputs", "anchors": ["wiz/WindTurbine.py:WindTurbine.compute_u", "wiz/VortexCylinder.py:vcs_tang_u"]}
{"id": "C27", "title": "Several cylinders superpose", "statement": "With model VC the field of a turbine with several cylinders (root vortex off, and ground effect or longitudinal vorticity off) is the sum over the cylinders of the field of the turbine with that single cylinder (same radius and intensities).", "quantifier": "all numbers of cylinders, radii, intensities", "why_tests_cant": "unbounded number of cylinders", "anchors": ["wiz/WindTurbine.py:WindTurbine.compute_u", "wiz/VortexCylinder.py:vcs_tang_u", "wiz/Solver.py:WakeVorticityFromCirculation_Discr"]}
{"id": "C28", "title": "Ct_const_cutoff profile", "statement": "The profile is CT0 between the cut and the tip radius, goes linearly to 0 at the root and at radius 1, stays between 0 and CT0, and has the length of its input.", "quantifier": "all CT0, cuts, radius arrays", "why_tests_cant": "continuum of inputs", "anchors": ["wiz/Solver.py:Ct_const_cutoff"]}
{"id": "C29", "title": "Stream-tube induction inverts momentum theory", "statement": "InductionsFromPrescribedCtCq_ST returns the smaller root a of Ct=4a(1-a), increasing in Ct, and NaN exactly for Ct>1; the tangential induction satisfies Cq=4a'(1-a)lambda_r.", "quantifier": "all Ct, Cq, radii", "why_tests_cant": "continuum of inputs", "anchors": ["wiz/Solver.py:InductionsFromPrescribedCtCq_ST"]}
{"id": "C30", "title": "High-thrust correction is continuously differentiable and increasing", "statement": "The induction as a function of the effective Ct (momentum theory below Ct_c, Spera line above) is continuous with continuous derivative at Ct_c, strictly increasing, and real for every Ct.", "quantifier": "all Ct", "why_tests_cant": "continuum of inputs", "anchors": ["wiz/Solver.py:InductionsFromCirculation_VC_Cont", "wiz/Solver.py:WakeVorticityFromCirculation_Discr"]}
{"id": "C31", "title": "The discrete solver reproduces the momentum induction at every cylinder", "statement": "WakeVorticityFromCirculation_Discr with swirl returns cumulative inductions a_i equal to the (Spera corrected) momentum induction of the effective Ct_i, for every number of cylinders.", "quantifier": "all numbers of cylinders, circulations, radii, tip speed ratios", "why_tests_cant": "induction over an unbounded loop with cumulative sums", "anchors": ["wiz/Solver.py:WakeVorticityFromCirculation_Discr"]}
{"id": "C32", "title": "Solver intensities are finite", "statement": "With the high-thrust correction the returned gamma_t is finite for every loading (no NaN from the square root).", "quantifier": "all loadings", "why_tests_cant": "NaN reachable only on rare inputs", "anchors": ["wiz/Solver.py:WakeVorticityFromCirculation_Discr"]}
{"id": "C33", "title": "Without swirl the azimuthal convection term is the documented one", "statement": "The tangential convection velocity used by the solver is a'_c,i=(Gamma_i+Gamma_{i+1})/(4 pi Omega R_i^2) (Eq. 26).", "quantifier": "all circulations, radii", "why_tests_cant": "the formula must hold for all inputs", "anchors": ["wiz/Solver.py:WakeVorticityFromCirculation_Discr"]}
{"id": "C34", "title": "Vorticity is conserved along the wake", "statement": "With swirl, the longitudinal vorticity integrated over all cylinders plus the root vortex is zero; without swirl neither is produced.", "quantifier": "all numbers of cylinders and circulations", "why_tests_cant": "telescoping sum of unbounded length", "anchors": ["wiz/Solver.py:WakeVorticityFromCirculation_Discr"]}
{"id": "C35", "title": "Cylinders enclose the control points", "statement": "The cylinder radii derived from strictly increasing positive control radii are strictly increasing, positive, and interleave the control radii (R_i between r_i and r_{i+1}), so the built-in check never fires.", "quantifier": "all strictly increasing radius arrays", "why_tests_cant": "unbounded arrays", "anchors": ["wiz/Solver.py:WakeVorticityFromCirculation_Discr"]}
{"id": "C36", "title": "A first cylinder of radius 0 is rejected with the documented error", "statement": "When the given cylinders enclose the control points and the first one has radius 0, the solver raises 'First cylinder at 0, impossible'.", "quantifier": "all inputs violating the checks", "why_tests_cant": "error path hit on all such inputs", "anchors": ["wiz/Solver.py:WakeVorticityFromCirculation_Discr"]}
{"id": "C37", "title": "Infinite tip-speed ratio means no swirl", "statement": "With Omega=inf (infinite tip-speed ratio) WakeVorticityFromCt/Gamma return no longitudinal and no root vorticity.", "quantifier": "all radii, wind speeds, loadings", "why_tests_cant": "depends on the ratio R/U0 over a continuum", "anchors": ["wiz/Solver.py:WakeVorticityFromCt", "wiz/Solver.py:WakeVorticityFromGamma"]}
{"id": "C38", "title": "Prescribed Ct is met", "statement": "CirculationFromPrescribedCt returns k>=0 with k(1+k/(4 lambda_r^2))=Ct (k=Ct without swirl), wherever such k lies in the search interval.", "quantifier": "all Ct, lambda_r", "why_tests_cant": "continuum; existence/uniqueness of the root", "anchors": ["wiz/Solver.py:CirculationFromPrescribedCt"]}
{"id": "C39", "title": "Solver functions do not modify their arguments", "statement": "None of the solver functions writes into the arrays passed by the caller.", "quantifier": "all inputs", "why_tests_cant": "aliasing visible only for inputs whose first element is 0", "anchors": ["wiz/Solver.py:InductionsFromCirculation_VC_Cont", "wiz/Solver.py:WakeVorticityFromCirculation_Cont", "wiz/Solver.py:WakeVorticityFromCirculation_Discr"]}
{"id": "C40", "title": "Continuous and discrete solvers agree on the uniform disk", "statement": "Without swirl, the continuous formulation returns the momentum induction of k at every radius.", "quantifier": "all radius and circulation arrays", "why_tests_cant": "unbounded arrays", "anchors": ["wiz/Solver.py:InductionsFromCirculation_VC_Cont", "wiz/Solver.py:WakeVorticityFromCirculation_Cont"]}
{"id": "C41", "title": "Carlson iteration terminates and keeps the shape", "statement": "ellipticPiCarlson returns for every input after at most 20 iterations of each inner loop, with one value per input, and [] for [].", "quantifier": "all input arrays", "why_tests_cant": "termination for every input", "anchors": ["wiz/elliptic.py:ellipticPiCarlson"]}
{"id": "C42", "title": "Carlson duplication preserves the integrals", "statement": "Each iteration of the RF, RC and RJ loops leaves the value of the corresponding complete integral unchanged (up to the accumulated RC terms), so the limit of the iterates is the elliptic integral.", "quantifier": "all admissible arguments, all iteration counts", "why_tests_cant": "analysis over a continuum", "anchors": ["wiz/elliptic.py:ellipticPiCarlson"]}
{"id": "C43", "title": "ellipticPiCarlson(n,m) converges to the integral", "statement": "The sequence computed by ellipticPiCarlson converges to PI(n,m)=int_0^{pi/2} dt/((1-n sin^2)sqrt(1-m sin^2)) for n<1, m<1.", "quantifier": "all n<1, m<1", "why_tests_cant": "analysis over a continuum", "anchors": ["wiz/elliptic.py:ellipticPiCarlson"]}
{"id": "C44", "title": "Evaluating points together or separately gives the same values", "statement": "Kernel values at a control point do not depend on which other points are in the same array.", "quantifier": "all arrays and points", "why_tests_cant": "all batches", "anchors": ["wiz/elliptic.py:ellipticPiCarlson", "wiz/VortexCylinderSkewed.py:svc_root_u_polar", "wiz/VortexCylinder.py:vc_tang_u"]}
{"id": "C45", "title": "Vortex ring velocity is the Biot-Savart integral", "statement": "Away from the ring (1e-7) and on the axis or at least 1e-7 R from it (the zones in which the code replaces its formula), ring_u_polar_singular(b), ring_u_polar and ring_u return the Biot-Savart line integral over the circle, given that ellipk/ellipe are the complete elliptic integrals.", "quantifier": "all points, radii, circulations", "why_tests_cant": "continuum of inputs", "anchors": ["wiz/VortexRing.py:ring_u_polar_singular", "wiz/VortexRing.py:ring_u_polar_singularb", "wiz/VortexRing.py:ring_u"]}
{"id": "C46", "title": "The two ring formulations agree", "statement": "ring_u_polar_singular and ring_u_polar_singularb return the same velocity off axis, and ring_u(epsilon=0) the same as ring_u_polar(epsilon=0).", "quantifier": "all points, radii, circulations", "why_tests_cant": "continuum of inputs", "anchors": ["wiz/VortexRing.py:ring_u_polar_singular", "wiz/VortexRing.py:ring_u_polar_singularb", "wiz/VortexRing.py:ring_u_polar"]}
{"id": "C47", "title": "Ring velocity is finite everywhere and linear in the circulation", "statement": "ring_u (every epsilon) and ring_u_polar (unregularised or with the default 'Saffman' core) return finite values at every control point, including axis and ring, and scale linearly with Gamma.", "quantifier": "all points, parameters", "why_tests_cant": "singular points form a measure-zero set tests miss", "anchors": ["wiz/VortexRing.py:ring_u", "wiz/VortexRing.py:ring_u_polar"]}
{"id": "C48", "title": "Ring symmetries", "statement": "The ring's axial velocity is even and the radial velocity odd in z, and the field is axisymmetric.", "quantifier": "all points, parameters", "why_tests_cant": "continuum of inputs", "anchors": ["wiz/VortexRing.py:ring_u"]}
{"id": "C49", "title": "Ring regularisation is self-consistent", "statement": "For epsilon>0 ring_u and ring_u_polar describe the same regularised ring, every accepted reg_method works and unknown ones are reported.", "quantifier": "all epsilon, points, reg_methods", "why_tests_cant": "continuum of inputs", "anchors": ["wiz/VortexRing.py:ring_u", "wiz/VortexRing.py:ring_u_polar"]}
{"id": "C50", "title": "rings_u is a superposition", "statement": "rings_u returns the sum over the rings of the single ring field at the shifted points; rings with zero intensity contribute nothing.", "quantifier": "any number of rings, all points", "why_tests_cant": "unbounded", "anchors": ["wiz/VortexRing.py:rings_u"]}
{"id": "C51", "title": "Vortex cylinder axial velocity on the axis and the rotor plane", "statement": "vc_tang_u gives gamma/2(1+z/sqrt(R^2+z^2)) on the axis, and on the rotor disk exactly gamma/2 inside, gamma/4 on the rim (within 1e-8 R of it), 0 outside.", "quantifier": "all radii, intensities, points", "why_tests_cant": "continuum of inputs", "anchors": ["wiz/VortexCylinder.py:vc_tang_u"]}
{"id": "C52", "title": "Vortex cylinder velocity is finite everywhere", "statement": "vc_tang_u (epsilon=0) returns finite values at every control point, including axis, rim and the cylinder surface.", "quantifier": "all points, R>0", "why_tests_cant": "singular sets", "anchors": ["wiz/VortexCylinder.py:vc_tang_u"]}
{"id": "C53", "title": "Vortex cylinder symmetries", "statement": "u_r is even and u_z-c odd in z with c=gamma/2 for r<R, gamma/4 for r=R and within 1e-8 R of the rim, 0 for r>R; the field is axisymmetric, linear in gamma and invariant under scaling of lengths.", "quantifier": "all points, parameters", "why_tests_cant": "continuum of inputs", "anchors": ["wiz/VortexCylinder.py:vc_tang_u"]}
{"id": "C54", "title": "Vortex cylinder is a stack of rings", "statement": "Moving the cylinder's origin changes its field by the field of the rings in between: the axial derivative of the cylinder's velocity is the velocity of a ring of the same intensity (given exact elliptic integrals).", "quantifier": "all points off the sheet and outside the zones (1e-7 R of axis and surface) in which the code replaces its formula", "why_tests_cant": "analysis over a continuum", "anchors": ["wiz/VortexCylinder.py:vc_tang_u", "wiz/VortexRing.py:ring_u_polar_singular"]}
{"id": "C55", "title": "A finite cylinder is the difference of two semi-infinite ones", "statement": "cylinder_tang_u(z1,z2) equals vc_tang_u at z-z1 minus vc_tang_u at z-z2, at least 1e-7 R off the axis and 1e-8 R off r=R.", "quantifier": "all points, z1, z2", "why_tests_cant": "continuum of inputs", "anchors": ["wiz/VortexCylinder.py:cylinder_tang_u", "wiz/VortexCylinder.py:vc_tang_u"]}
{"id": "C56", "title": "Raw and guarded cylinder formulas agree", "statement": "cylinder_tang_semi_inf_u_raw equals vc_tang_u away from axis and r=R.", "quantifier": "all points", "why_tests_cant": "continuum of inputs", "anchors": ["wiz/VortexCylinder.py:cylinder_tang_semi_inf_u_raw", "wiz/VortexCylinder.py:vc_tang_u"]}
{"id": "C57", "title": "Cartesian output is the polar output in Cartesian components", "statement": "For the straight line, the ring, the tangential and the longitudinal cylinder, the skewed tangential cylinder and the skewed root vortex, at every point where the velocity is defined, the Cartesian answer is (u_r cos psi - u_psi sin psi, u_r sin psi + u_psi cos psi, u_z) of the polar answer.", "quantifier": "all points, kernels", "why_tests_cant": "continuum of inputs", "anchors": ["wiz/VortexCylinder.py:vc_tang_u", "wiz/VortexLine.py:vl_semiinf_straight_u_polar", "wiz/VortexCylinderSkewed.py:svc_tang_u_polar", "wiz/VortexCylinderSkewed.py:svc_longi_u_polar", "wiz/VortexCylinderSkewed.py:svc_root_u_polar", "wiz/VortexCylinderSkewed.py:svc_u_polar"]}
{"id": "C58", "title": "Far-field switch selects by distance only", "statement": "vc_tang_u_doublet equals vc_tang_u within distance r_bar_Cut*R of the origin and the doublet line field beyond, point by point.", "quantifier": "all points, arrays", "why_tests_cant": "masking over arrays of any length", "anchors": ["wiz/VortexCylinder.py:vc_tang_u_doublet"]}
{"id": "C59", "title": "Longitudinal vorticity gives finite velocities", "statement": "vc_longi_u returns a finite velocity at every control point off the sheet, including the axis.", "quantifier": "all points", "why_tests_cant": "singular sets", "anchors": ["wiz/VortexCylinder.py:vc_longi_u_polar"]}
{"id": "C60", "title": "Semi-infinite vortex line is Biot-Savart", "statement": "vl_semiinf_u (no core) and vl_semiinf_straight_u return the Biot-Savart integral of a semi-infinite straight filament; they agree for a filament along z.", "quantifier": "all points off the line, unit directions", "why_tests_cant": "improper integral over a continuum", "anchors": ["wiz/VortexLine.py:vl_semiinf_u", "wiz/VortexLine.py:vl_semiinf_straight_u_polar"]}
{"id": "C61", "title": "Viscous core models 0 and 5 of vl_semiinf_u never exceed the inviscid velocity", "statement": "With visc_model 0 or 5 vl_semiinf_u returns a velocity, finite, and no larger than the inviscid one.", "quantifier": "all points, core parameters", "why_tests_cant": "all inputs of the branch fail", "anchors": ["wiz/VortexLine.py:vl_semiinf_u"]}
{"id": "C62", "title": "Root vortex on its axis", "statement": "vc_root_u/vl_semiinf_straight_u return finite velocities at every point, including the axis r=0.", "quantifier": "all points", "why_tests_cant": "singular sets", "anchors": ["wiz/VortexLine.py:vl_semiinf_straight_u_polar", "wiz/VortexCylinder.py:vc_root_u"]}
{"id": "C63", "title": "Doublet-line closed forms equal their integrals", "statement": "I30, 3*I50, 3*I51, 3*I52 of the semi-infinite line equal the documented improper integrals from 0 to infinity.", "quantifier": "all admissible a,b,c", "why_tests_cant": "integrals over a continuum", "anchors": ["wiz/VortexDoublet.py:I30", "wiz/VortexDoublet.py:tI50", "wiz/VortexDoublet.py:tI51", "wiz/VortexDoublet.py:tI52", "wiz/VortexDoublet.py:_integrals_DL_finite"]}
{"id": "C64", "title": "Semi-infinite doublet line is the integral of point doublets", "statement": "doublet_line_u of a semi-infinite line returns the integral over the line of the point-doublet velocity with density dmz_dz; for m=0 it is a point sink field, equal to doublet_line_polar_u.", "quantifier": "all points off the line, skews", "why_tests_cant": "integrals over a continuum", "anchors": ["wiz/VortexDoublet.py:doublet_line_u", "wiz/VortexDoublet.py:doublet_line_polar_u"]}
{"id": "C65", "title": "Doublet fields agree and are finite", "statement": "doublet_u and doublet_u_polar agree for an axial doublet, are finite everywhere, linear in the moment and odd/even under inversion.", "quantifier": "all points, moments", "why_tests_cant": "continuum of inputs", "anchors": ["wiz/VortexDoublet.py:doublet_u", "wiz/VortexDoublet.py:doublet_u_polar"]}
{"id": "C66", "title": "Skewed cylinder at the rotor centre", "statement": "The axial velocity at the rotor centre of a skewed cylinder is exactly gamma/2, for every skew angle and number of integration points.", "quantifier": "all skews, ntheta>=2", "why_tests_cant": "numerical quadrature exact for all parameters", "anchors": ["wiz/VortexCylinderSkewed.py:svc_tang_u_polar"]}
{"id": "C67", "title": "Skew and polar projections are rotations", "statement": "skew_components and polar_components preserve the norm and are inverted by the opposite angle.", "quantifier": "all vectors and angles", "why_tests_cant": "continuum of inputs", "anchors": ["wiz/VortexCylinderSkewed.py:skew_components", "wiz/VortexCylinderSkewed.py:polar_components"]}
{"id": "C68", "title": "Skewed root vortex: rotor-plane formula matches the general one", "statement": "In the rotor plane the analytical branch of svc_root_u_polar returns the same velocity as the general semi-infinite line formula.", "quantifier": "all points of the rotor plane, skews", "why_tests_cant": "continuum of inputs", "anchors": ["wiz/VortexCylinderSkewed.py:svc_root_u_polar", "wiz/VortexLine.py:vl_semiinf_u"]}
{"id": "C69", "title": "fKzt is Coleman's integral and the numerical expansion functions are consistent", "statement": "fKzt returns Coleman's integral; the numerically integrated outputs of fKxit and fKzt satisfy the yaw article's relation Kxit = Kzt*sqrt(1+m^2)/m; fKxit without skew is the un-skewed expansion function, and fKzt without skew raises.", "quantifier": "all r in (0,1), m>0", "why_tests_cant": "continuum of inputs", "anchors": ["wiz/VortexCylinderSkewed.py:fKxit", "wiz/VortexCylinderSkewed.py:fKzt"]}
{"id": "C70", "title": "Self-similar induction", "statement": "ss_u is 0 downstream, equals the cylinder's axis value on the axis upstream, has the sign of gamma_t, is bounded by the axis value and decays with radius.", "quantifier": "all points, parameters", "why_tests_cant": "continuum of inputs", "anchors": ["wiz/SelfSimilar.py:ss_u"]}
{"id": "C71", "title": "Vortex point velocity", "statement": "vp_u is perpendicular to the separation, has magnitude Gamma/(2 pi r), and two equal vortices induce opposite velocities on each other.", "quantifier": "all positions, circulations", "why_tests_cant": "continuum of inputs", "anchors": ["wiz/VortexPoint.py:vp_u"]}
{"id": "C72", "title": "vps_u is a superposition of vortex points", "statement": "vps_u returns at each control point the sum over the vortices (except coinciding ones) of the kernel, equal to vp_u without smoothing; the total impulse of mutual induction vanishes.", "quantifier": "any number of vortices and points", "why_tests_cant": "unbounded double loop", "anchors": ["wiz/VortexPoint.py:vps_u"]}
{"id": "C73", "title": "vps_u accepts exactly the supported smoothing models and kernel orders", "statement": "vps_u computes with every supported combination of smoothing model and kernel order, and raises with every other.", "quantifier": "all shapes, model/order pairs", "why_tests_cant": "vacuous check for all inputs", "anchors": ["wiz/VortexPoint.py:vps_u"]}
{"id": "C74", "title": "pretty_time returns six characters", "statement": "pretty_time(t) is a string of exactly 6 characters for every time t.", "quantifier": "all times", "why_tests_cant": "boundaries of all ranges", "anchors": ["wiz/examples/tictoc.py:pretty_time"]}
{"id": "C75", "title": "Plane files round trip", "statement": "loadPlane(base) after savePlane(x,y,u,v,base) returns x,y,u,v (u,v divided by U0 when given); saving under another base name does not disturb it, and the last save wins.", "quantifier": "all planes, base names, file systems and sequences of saves", "why_tests_cant": "unbounded arrays and histories", "anchors": ["coupling_examples/helper_functions.py:savePlane", "coupling_examples/helper_functions.py:loadPlane"]}
{"id": "C76", "title": "Skewed tangential cylinder is a trapezoidal sum of Biot-Savart rows", "statement": "svc_tang_u_polar returns, in Cartesian or polar components, the ntheta-point trapezoidal rule over the circumference of the exact Biot-Savart integral along each skewed generator of the sheet.", "quantifier": "all points off the sheet, skews, radii, intensities, ntheta>=2", "why_tests_cant": "improper integrals over a continuum of points", "anchors": ["wiz/VortexCylinderSkewed.py:svc_tang_u_polar"]}
{"id": "C77", "title": "Skewed longitudinal cylinder is a trapezoidal sum of vortex lines", "statement": "svc_longi_u_polar returns the ntheta-point trapezoidal rule over the circumference of the velocity of semi-infinite vortex lines of circulation gamma_l*R starting on the rotor circle along the skewed axis, in Cartesian components; with polar_out its azimuthal and axial components are those of that vector.", "quantifier": "all points off the sheet, skews, radii, intensities, ntheta>=2", "why_tests_cant": "improper integrals over a continuum of points", "anchors": ["wiz/VortexCylinderSkewed.py:svc_longi_u_polar"]}
{"id": "C78", "title": "Longitudinal cylinder is the Biot-Savart integral of its vortex lines", "statement": "vc_longi_u's velocity is the integral around the circle of the Biot-Savart velocities of the half lines of circulation gamma_l*R per radian parallel to the axis (given exact elliptic integrals).", "quantifier": "all intensities, radii, arrays, points off the axis and off the cylinder's surface", "why_tests_cant": "improper integrals over a continuum", "anchors": ["wiz/VortexCylinder.py:vc_longi_u_polar", "wiz/VortexCylinder.py:vc_longi_u"]}
{"id": "C79", "title": "The far field approximates the cylinder beyond the cut, away from the axis of the wake", "statement": "At every control point beyond r_bar_Cut*R that is at least dl >= 4 R away from the axis of the wake, what vc_tang_u_doublet returns differs from the Biot-Savart velocity of the cylinder by at most 41 pi |gamma_t| (R/dl)^4 in each component, and from what vc_tang_u returns by that plus the error of the elliptic integral; on the upstream axis by at most 3 |gamma_t| R^4/(16 z^4).", "quantifier": "all points beyond the cut and >= 4R from the wake axis (but the strips of 1e-8 the code treats apart), all arrays, intensities, radii, cuts", "why_tests_cant": "error bound over an unbounded continuum", "anchors": ["wiz/VortexCylinder.py:vc_tang_u_doublet", "wiz/VortexDoublet.py:doublet_line_polar_u", "wiz/VortexCylinder.py:vc_tang_u"]}
{"id": "C80", "title": "ellipticPiCarlson is accurate at its own tolerance", "statement": "The value ellipticPiCarlson(n,m) returns with its built-in tolerance (1e-12) and iteration limit is PI(n,m) up to a small relative error for every n<1, m<1.", "quantifier": "all n<1, m<1", "why_tests_cant": "an accuracy statement over a continuum; the exceptional arguments form a set no test hits", "anchors": ["wiz/elliptic.py:ellipticPiCarlson"]}
{"id": "C81", "title": "update_loading replaces the loading completely", "statement": "After a successful update_loading with a tip-speed ratio, every loading attribute (radii, gamma_t, gamma_l, Gamma_r, Lambda, Ct) is a function of the arguments, the rotor radius and the wind speed only: nothing of an earlier loading survives, and what is stored is what the wake solver returns for the given distribution (by default its mean carried by a single cylinder).", "quantifier": "all turbines, all earlier histories, all distributions and options", "why_tests_cant": "an invariant over all histories of calls", "anchors": ["wiz/WindTurbine.py:WindTurbine.update_loading"]}
{"id": "C82", "title": "The skewed quadratures converge to the Biot-Savart integral over the sheet", "statement": "As ntheta grows, svc_tang_u_polar (both output forms) and svc_longi_u_polar (Cartesian output) tend, component by component, to the Biot-Savart velocity of the whole semi-infinite skewed sheet of tangential (longitudinal) vorticity.", "quantifier": "all points off the sheet, all skews, radii and intensities; the limit is over all ntheta", "why_tests_cant": "a limit statement; a test sees finitely many ntheta", "anchors": ["wiz/VortexCylinderSkewed.py:svc_tang_u_polar", "wiz/VortexCylinderSkewed.py:svc_longi_u_polar"]}
{"id": "C83", "title": "At zero skew the skewed cylinder is the straight cylinder", "statement": "With m=0 svc_tang_u_polar and svc_longi_u_polar tend, as ntheta grows, to what vc_tang_u and vc_longi_u return at the same point (given exact elliptic integrals).", "quantifier": "all points off the sheet (tangential: on the axis or beyond 1e-7 R of it; longitudinal: off the axis), radii, intensities, arrays", "why_tests_cant": "a limit statement relating two independent formulas over a continuum", "anchors": ["wiz/VortexCylinderSkewed.py:svc_tang_u_polar", "wiz/VortexCylinderSkewed.py:svc_longi_u_polar", "wiz/VortexCylinder.py:vc_tang_u", "wiz/VortexCylinder.py:vc_longi_u"]}
{"id": "C84", "title": "A failing call leaves the turbine unchanged", "statement": "When compute_u raises, the turbine is left as it was: later successful calls answer as if the failing one had not been made.", "quantifier": "all turbine states, options, points and later calls", "why_tests_cant": "all error paths and all later histories", "anchors": ["wiz/WindTurbine.py:WindTurbine.compute_u"]}
{"id": "C85", "title": "Ground plane is impermeable to every component of the vorticity", "statement": "With ground effect and zero skew the vertical velocity induced on the ground plane y=0 is zero also with the root vortex and the longitudinal vorticity switched on.", "quantifier": "all hub heights, models, points of the plane, components", "why_tests_cant": "continuum of inputs", "anchors": ["wiz/WindTurbine.py:WindTurbine.compute_u"]}
{"id": "C86", "title": "The stored cylinders are those the loading was solved for", "statement": "After a radial loading with several stations, the cylinder radii used by compute_u are the radii for which the solver determined the intensities.", "quantifier": "all loadings, numbers of stations", "why_tests_cant": "unbounded number of cylinders", "anchors": ["wiz/WindTurbine.py:WindTurbine.update_loading", "wiz/Solver.py:WakeVorticityFromCirculation_Discr"]}
{"id": "C87", "title": "Linearly regularised ring is finite and linear in the circulation", "statement": "ring_u_polar with reg_method 'linear' returns finite values everywhere and scales linearly with Gamma.", "quantifier": "all points, parameters", "why_tests_cant": "singular points form a measure-zero set tests miss", "anchors": ["wiz/VortexRing.py:ring_u_polar"]}
{"id": "C88", "title": "Ring velocity scales as 1/length", "statement": "Scaling the control point, the ring radius and the core size by k divides the ring velocity by k.", "quantifier": "all points, parameters, k>0", "why_tests_cant": "continuum of inputs; the exceptional set is thin", "anchors": ["wiz/VortexRing.py:ring_u"]}
{"id": "C89", "title": "Polar outputs of the composite kernels", "statement": "Also for svc_longi_u_polar, svc_u_polar and rings_u the Cartesian answer is the polar answer in Cartesian components.", "quantifier": "all points, parameters", "why_tests_cant": "continuum of inputs", "anchors": ["wiz/VortexCylinderSkewed.py:svc_longi_u_polar", "wiz/VortexCylinderSkewed.py:svc_u_polar", "wiz/VortexRing.py:rings_u"]}
{"id": "C90", "title": "Finite doublet-line closed forms equal their integrals", "statement": "_integrals_DL_finite returns the documented integrals from 0 to L of 1/d^3, 3/d^5, 3x/d^5 and 3x^2/d^5.", "quantifier": "all admissible a,b,c,L", "why_tests_cant": "integrals over a continuum", "anchors": ["wiz/VortexDoublet.py:_integrals_DL_finite"]}
{"id": "C91", "title": "Finite doublet line is the integral of point doublets", "statement": "doublet_line_u of a line of finite length returns the integral over the line of the point-doublet velocity.", "quantifier": "all points off the line, skews, lengths", "why_tests_cant": "integrals over a continuum", "anchors": ["wiz/VortexDoublet.py:doublet_line_u"]}
{"id": "C92", "title": "Closed-form fKxit and fKzt satisfy Kxit = Kzt*sqrt(1+m^2)/m", "statement": "The closed-form outputs of the two flow-expansion functions satisfy the yaw article's relation, and nout selects further documented outputs.", "quantifier": "all r in (0,1), m>0, nout", "why_tests_cant": "continuum of inputs", "anchors": ["wiz/VortexCylinderSkewed.py:fKxit", "wiz/VortexCylinderSkewed.py:fKzt"]}
{"id": "C93", "title": "vps_u checks dimensions", "statement": "vps_u raises if control points and vortices have different dimensions.", "quantifier": "all shapes", "why_tests_cant": "the check is vacuous for all inputs", "anchors": ["wiz/VortexPoint.py:vps_u"]}
{"id": "C94", "title": "Plane files survive crashes", "statement": "After a crash at any point of savePlane, loadPlane returns either the old or the new plane.", "quantifier": "all planes, all crash points", "why_tests_cant": "all crash points", "anchors": ["coupling_examples/helper_functions.py:savePlane", "coupling_examples/helper_functions.py:loadPlane"]}
{"id": "C95", "title": "Cylinders that do not enclose the control points give a warning", "statement": "When the given cylinders do not enclose the control points the solver warns and continues.", "quantifier": "all inputs violating the check", "why_tests_cant": "error path hit on all such inputs", "anchors": ["wiz/Solver.py:WakeVorticityFromCirculation_Discr"]}
{"id": "C96", "title": "Every documented viscous core model of vl_semiinf_u works", "statement": "For each documented visc_model 0..5 vl_semiinf_u returns a velocity, finite, and no larger than the inviscid one.", "quantifier": "all points, core parameters, models", "why_tests_cant": "all inputs of the branch fail", "anchors": ["wiz/VortexLine.py:vl_semiinf_u"]}
{"id": "C97", "title": "An error of the third-kind integral has a bounded effect, and the Carlson iteration makes the cylinder velocities converge", "statement": "If the third-kind routine is off by d at a control point's arguments, vc_tang_u is off from the Biot-Savart integral by at most |gamma_t| d/(2 pi) (axial component only) and vc_longi_u by at most |gamma_l| R d/(2 pi r) per component; with N iterations of ellipticPiCarlson's loops both converge to the Biot-Savart integrals, with an error below B/4^N.", "quantifier": "all points off the sheet and the special zones, all arrays of companions, all third-kind routines, all N>=2", "why_tests_cant": "error propagation over a continuum of inputs; a limit", "anchors": ["wiz/VortexCylinder.py:vc_tang_u", "wiz/VortexCylinder.py:vc_longi_u", "wiz/elliptic.py:ellipticPiCarlson"]}
{"id": "C98", "title": "The numerical quadratures of VortexDoublet converge to the closed forms", "statement": "As zmax and then nQuad grow, I30_num, I50_num, I51_num and I52_num at (x,y,z,m) tend to I30, tI50/3, tI51/3 and tI52/3 evaluated at a=sqrt(x^2+y^2+z^2), b=m x+z, c=sqrt(m^2+1).", "quantifier": "all points off the doublet line, all slopes m, all zmax and nQuad", "why_tests_cant": "a double limit over a continuum of inputs", "anchors": ["wiz/VortexDoublet.py:I30_num", "wiz/VortexDoublet.py:I50_num", "wiz/VortexDoublet.py:I51_num", "wiz/VortexDoublet.py:I52_num", "wiz/VortexDoublet.py:I30", "wiz/VortexDoublet.py:tI50", "wiz/VortexDoublet.py:tI51", "wiz/VortexDoublet.py:tI52"]}
{"id": "C99", "title": "Sums of point doublets converge to the closed-form doublet line", "statement": "As zmax and then nQuad grow, doublet_line_u_num tends in every component to doublet_line_u, and doublet_line_polar_u_num tends at every entry of an array of points to doublet_line_polar_u.", "quantifier": "all points at a cubed distance of at least 1e-8 from the line, all intensities, slopes, arrays", "why_tests_cant": "a double limit over a continuum of inputs", "anchors": ["wiz/VortexDoublet.py:doublet_line_u_num", "wiz/VortexDoublet.py:doublet_line_polar_u_num", "wiz/VortexDoublet.py:doublet_line_u", "wiz/VortexDoublet.py:doublet_line_polar_u"]}
{"id": "C100", "title": "Trailed-vorticity model of the curled wake is a trapezoidal sum of Biot-Savart half lines", "statement": "vcl_u returns, for every control point, the trapezoidal rule over the theta array of the y and z velocities (Biot-Savart) of half lines of circulation R*gamma_x(theta) that start on the rim of the yawed disk and run along x, each weighted by 1-exp(-d^2/sigma^2) when sigma is given; the x component of every such line is zero, so nothing is dropped.", "quantifier": "all arrays theta, gamma_x, sigma, all radii, yaws and arrays of control points off the lines", "why_tests_cant": "arbitrary array lengths and a continuum of inputs", "anchors": ["wiz/examples/CurledWake_2D.py:vcl_u"]}
{"id": "C101", "title": "The three curled-wake models of the example agree", "statement": "ve_u is the limit of vcl_u far downstream, for any arrays and also summed over the surfaces as main does; and the vortex-point integration of main (vps_u, smoothing off or Gaussian of order 2) returns the same numbers as the sum of ve_u for a closed uniform theta array.", "quantifier": "all yaws, surfaces, theta counts, periodic smoothing lengths, control points away from the ellipse", "why_tests_cant": "a limit, sums of arbitrary length", "anchors": ["wiz/examples/CurledWake_2D.py:ve_u", "wiz/examples/CurledWake_2D.py:vcl_u", "wiz/examples/CurledWake_2D.py:main", "wiz/VortexPoint.py:vps_u"]}
{"id": "C102", "title": "The smoothed curled-wake models are finite everywhere", "statement": "With a smoothing length sigma, ve_u and vcl_u return finite velocities at every control point, including on the trailed lines where the smoothing factor vanishes.", "quantifier": "all arrays, all control points", "why_tests_cant": "all inputs of the branch fail", "anchors": ["wiz/examples/CurledWake_2D.py:ve_u", "wiz/examples/CurledWake_2D.py:vcl_u"]}
{"id": "C103", "title": "A doublet line approximates the skewed vortex cylinder", "statement": "A doublet line of intensity gamma_t sqrt(1+m^2) pi R^2 per unit of z along the axis of a wake of slope m (doublet_line_u) gives, at every point at least dl >= 4 R away from that axis, the Biot-Savart velocity of the skewed cylinder and the limit of svc_tang_u (n to infinity) up to 41 pi |gamma_t| (R/dl)^4 in each component.", "quantifier": "all slopes, radii, intensities, all points >= 4R from the wake axis", "why_tests_cant": "error bound over an unbounded continuum", "anchors": ["wiz/VortexDoublet.py:doublet_line_u", "wiz/VortexCylinderSkewed.py:svc_tang_u", "wiz/WindTurbine.py:compute_u"]}
{"id": "C104", "title": "The far field approximates the cylinder on the axis of the wake", "statement": "Beyond r_bar_Cut*R on the axis of the wake, vc_tang_u_doublet approximates vc_tang_u.", "quantifier": "all points of the wake axis beyond the cut", "why_tests_cant": "all inputs of a continuum", "anchors": ["wiz/VortexCylinder.py:vc_tang_u_doublet", "wiz/VortexDoublet.py:doublet_line_polar_u"]}
{"id": "C105", "title": "The cylinder intensity is twice the induction at the rotor centre", "statement": "After any sequence of updates of a turbine with a single tangential cylinder of intensity g, compute_u (model VC, no ground) at the hub gives, along the shaft, the free wind (or 0 with only_ind) plus g/2, for every yaw, wind direction and skew angle that is not a right angle; without skew the whole vector is wind + g/2 shaft, and at every point of the rotor plane off the rim the axial velocity is wind + g/2 inside the rotor and wind outside, plus the same for the image rotor when the ground is on.", "quantifier": "all update histories, yaws, winds, skews, ground settings, arrays of points containing the point", "why_tests_cant": "state histories and a continuum of inputs", "anchors": ["wiz/WindTurbine.py:compute_u", "wiz/VortexCylinderSkewed.py:svc_tang_u", "wiz/VortexCylinder.py:vc_tang_u"]}
{"id": "C106", "title": "From the thrust coefficient to the velocity at the rotor", "statement": "For any turbine state, update_loading(Ct) with the default single cylinder and a tip-speed ratio of at least 20 or infinite followed by compute_u at the hub gives wind minus a(CT)*|U| along the shaft, where CT is the mean of the Ct values, a is the momentum-theory (Glauert-corrected above 0.8976) induction of CT(1+e) and e is the code's conversion term; for an infinite tip-speed ratio e<=1e-7.", "quantifier": "all update histories, Ct arrays, winds, radii, yaws, skews", "why_tests_cant": "composition of two methods over all states", "anchors": ["wiz/WindTurbine.py:update_loading", "wiz/WindTurbine.py:compute_u", "wiz/Solver.py:WakeVorticityFromCt"]}
{"id": "C107", "title": "setupModel with MatchMidVel reproduces the actuator-disk velocity at the rotor centre", "statement": "setupModel(..., MatchMidVel=True, Model='VC') returns a model whose fAxial velocity at z=0 is exactly the centre velocity of the actuator-disk data, for every yaw (whose skew is not a right angle) with the hub 9 radii or more above the ground, or unyawed with the ground effect and the hub at least one radius above it; an explicit gamma_t overrides it and gives U0 cos(yaw)+gamma_t/2; without either the velocity is U0 (cos(yaw) - a(CT)).", "quantifier": "all CT<=1, hub heights, yaws, wind speeds, tip-speed ratios, arrays of z containing 0", "why_tests_cant": "continuum of inputs through the whole pipeline", "anchors": ["wiz/article_blockage/helper_functions.py:setupModel", "wiz/article_blockage/helper_functions.py:OutputVC", "wiz/WindTurbine.py:compute_u"]}
{"id": "C108", "title": "Farm builders of the blockage article: layout, loading and superposition", "statement": "VCFarmFromFloris returns nx*ny turbines, the one of row i and column j at index i*nx+j, at (i*S,(j-nx/2)*S,HH), of radius 1/2, loaded with CTs[j][i] and with the ground effect iff HH<10; a farm without turbines raises IndexError. Each such turbine alone gives wind+gamma/2 at its hub (HH>=1/2). ADFarm2VCFarm returns 1 plus the sum over the turbines of the velocity each induces alone, with the ground effect decided by the height of the last turbine; it raises when there is no turbine or fewer CTs than turbines, and returns zeros for the top line of a single turbine. Turbines in a lateral row at height >= 10 and at least 1 apart do not change one another's axial velocity at the hubs.", "quantifier": "all layouts, thrust coefficients in [0,1], user-given intensity functions, arrays of points", "why_tests_cant": "arbitrary farm sizes and a continuum of inputs", "anchors": ["wiz/article_blockage/helper_functions.py:VCFarmFromFloris", "wiz/article_blockage/helper_functions.py:ADFarm2VCFarm", "wiz/article_blockage/helper_functions.py:gamma_CT_fun"]}
{"id": "C109", "title": "Extraction of lines and of the centre value from actuator-disk data", "statement": "find_nearest returns the first entry nearest to the value and its index (an exact entry when there is one; a NaN entry wins; empty raises ValueError). OutputAD.fCenter is the entry of the plane nearest to the origin, fAxial and fRadial are the broken lines through the column and row of the plane nearest to the requested line, constant beyond the data. The matched model (setupModel with MatchMidVel) and the data agree at z=0.", "quantifier": "all strictly increasing grids, all data, all query arrays", "why_tests_cant": "arbitrary array lengths and values", "anchors": ["wiz/article_blockage/helper_functions.py:find_nearest", "wiz/article_blockage/helper_functions.py:OutputAD", "wiz/article_blockage/helper_functions.py:setupModel"]}
{"id": "C110", "title": "Coefficient of determination: range, exact fits and NaNs", "statement": "rsquare(y,f) returns max(0,1-SSR/SST) and the root mean square error; the coefficient lies in [0,1], is 1 iff the fit is exact, and the error is 0 iff the fit is exact; pairs with a NaN are ignored; arrays of different sizes raise. For constant data with a constant term it returns 0 whatever the fit, even an exact one.", "quantifier": "all arrays of any length, with and without constant term", "why_tests_cant": "arbitrary arrays", "anchors": ["wiz/article_skew/test_Skew_TangentialVorticity.py:rsquare"]}
{"id": "C111", "title": "Relative error between two induction curves", "statement": "relerrinduction is 100 times the mean, over 100 equidistant stations between x1 and x2, of |u1-u2|/u1 for the two broken lines; it is at least 0, 0 iff the curves agree at all stations, and unchanged when both curves are scaled by the same positive factor; the _mid and _25 variants are the same error at the single stations x=0 and x=-2.5.", "quantifier": "all increasing abscissae, all positive curves, all intervals, all positive factors", "why_tests_cant": "arbitrary arrays and a continuum of inputs", "anchors": ["wiz/article_blockage/helper_functions.py:relerrinduction", "wiz/article_blockage/helper_functions.py:relerrinduction_mid", "wiz/article_blockage/helper_functions.py:relerrinduction_25"]}
{"id": "C112", "title": "Wind and cylinder coordinates of the skewed-cylinder example are inverse rotations", "statement": "Tw2c rotates a vector by the skew angle about the y axis (or leaves it alone when the switch is off), preserves its length, and Tc2w undoes it, in both orders.", "quantifier": "all vectors, angles and switches", "why_tests_cant": "continuum of inputs", "anchors": ["wiz/examples/VortexCylinderSkewed.py:Tw2c", "wiz/examples/VortexCylinderSkewed.py:Tc2w"]}
{"id": "C113", "title": "Contour levels and colour ramp of the plots are consistent", "statement": "get_contours returns ordered levels, the filled ones being the lines plus the bounds 0.2 and 1.4; make_colormap joins the colours continuously at every given value; the positions get_cmap passes lie in [0,1], and are strictly increasing from 0 to 1 exactly when minSpeed<0.9 and maxSpeed>1.001.", "quantifier": "all CT, colour lists, bounds", "why_tests_cant": "continuum of inputs", "anchors": ["wiz/plotting_functions.py:get_contours", "wiz/plotting_functions.py:make_colormap", "wiz/plotting_functions.py:get_cmap"]}
{"id": "C114", "title": "Legacy functions return one velocity in three frames", "statement": "fV_Tangential, fV_Trailed and fV_Root return (u_z,u_psi,u_x,u_y,u_zeta,u_xi,u_r): at every point off the wake surface these seven numbers are the components of one velocity in the Cartesian, polar and skewed frames; that velocity is the ntheta-point trapezoidal sum of Biot-Savart rows (tangential) or half-lines (trailed) of a cylinder of radius 1, or the velocity of svc_root_u_polar, whose polar output has the same components. nout returns the first nout of the seven. The three parts add up to svc_u_polar.", "quantifier": "all points, skews, intensities, numbers of azimuths >= 2 and of outputs", "why_tests_cant": "continuum of inputs; agreement of three coordinate frames", "anchors": ["wiz/VortexCylinderSkewed.py:fV_Trailed", "wiz/VortexCylinderSkewed.py:fV_Tangential", "wiz/VortexCylinderSkewed.py:fV_Root", "wiz/VortexCylinderSkewed.py:svc_u_polar"]}
{"id": "C115", "title": "A turbine is not changed by writing the arrays it was given", "statement": "Hub, shaft, vertical and wind vectors given as NumPy arrays are taken by value: any program of constructions, moves, loadings, evaluations, layout changes and array writes leaves the turbines that the same program leaves when arrays are copied on each call.", "quantifier": "all programs of such operations of any length, all arrays, layouts in C and Fortran order", "why_tests_cant": "aliasing over arbitrary histories", "anchors": ["wiz/WindTurbine.py:update_position", "wiz/WindTurbine.py:update_wind", "wiz/WindFarm.py:WindFarm", "wiz/WindTurbine.py:WindTurbine"]}
{"id": "C116", "title": "Continuous solver with swirl: momentum balance, rotation term and torque option", "statement": "With swirl, InductionsFromCirculation_VC_Cont returns a'=k/(4 lambda^2), Ct_KJ=k(1+a'), Ct_rot = 8 times the trapezoidal integral of lambda^2 a'^2/r from the station to the last one, Ct_eff=Ct_KJ-Ct_rot, and the momentum induction of Ct_eff. The tangential induction equals that of the discrete solver, Gamma/(4 pi Omega r^2). For a uniform circulation the rotation term exceeds its exact integral by a second-order error only. Giving Cq changes neither a nor the thrust coefficients, and returns a' and k_Cq with Cq = 4a'(1-a)lambda = k_Cq(1-a)/lambda.", "quantifier": "all grids of any length with nonzero radii, all circulations, all Cq", "why_tests_cant": "arbitrary array lengths and values", "anchors": ["wiz/Solver.py:InductionsFromCirculation_VC_Cont", "wiz/Solver.py:WakeVorticityFromCirculation_Cont", "wiz/Solver.py:WakeVorticityFromCirculation_Discr"]}
{"id": "C117", "title": "Reference data: the plane loaded is that of the case asked for", "statement": "loadPlane reads, for a case (CT in hundredths, hub height in tenths or above 9, tip-speed ratio, yaw, orientation), files that no other case reads; it answers None exactly when the case has no data (free field: vertical plane, or yawed with finite tip-speed ratio; near the ground: yawed, or a tip-speed ratio other than 6 or above 20), and raises when the tip-speed ratio (of at most 20) or the yaw is a float. OutputProj reads the file of the hundredth nearest to CT.", "quantifier": "all thrust coefficients, hub heights, tip-speed ratios, yaws and orientations, in exact arithmetic and in binary64", "why_tests_cant": "all keys must be distinct; depends on rounding of CT*100", "anchors": ["wiz/article_blockage/helper_functions.py:loadPlane", "wiz/article_blockage/helper_functions.py:OutputProj"]}
{"id": "C118", "title": "Dictionary of simulated farms: a request finds its own simulation", "statement": "getSim, getSimTop, getSimCTs find the farm stored for their spacing, layout, CT and HH (the latter to the nearest hundredth) and no other; getSim raises if the number of thrust coefficients is not that of the layout, if a line is missing or if the spacing is not a whole number; for a 1x1 layout the spacing is ignored and getSimTop always raises; get25 is the broken line of the middle line at -2.5; getSimCTs returns the coefficients row by row and the distinct positions in increasing order, divided by the spacing, and raises for a float spacing.", "quantifier": "all dictionaries of distinct cases, all requests", "why_tests_cant": "arbitrary dictionaries; distinctness of formatted keys", "anchors": ["wiz/article_blockage/helper_functions.py:getSim", "wiz/article_blockage/helper_functions.py:getSimTop", "wiz/article_blockage/helper_functions.py:get25", "wiz/article_blockage/helper_functions.py:getSimCTs"]}
{"id": "C119", "title": "A turbine's wake slows the air upstream and inside, and speeds it up beside the wake", "statement": "vc_tang_u with gamma_t=g gives u_z=g k with, outside the rim zone: upstream of the rotor plane 0<k<1/2 inside the tube's extension (r<R) and 0<k<1/4 for r>=R; in the rotor plane k=1/2 for r<R and 0 for r>R; downstream 1/2<k<1 inside the tube, 1/4<k<1/2 on its surface and -1/4<k<0 outside; for r<R, k increases with z. An error e on the third-kind integral changes u_z by at most |g|e/(2 pi). The radial component has the sign of -g everywhere outside the axis and rim zones (expansion).", "quantifier": "all intensities, radii, points and arrays of points, all third-kind routines of error e", "why_tests_cant": "sign of an elliptic-integral expression over a continuum of points", "anchors": ["wiz/VortexCylinder.py:vc_tang_u"]}
{"id": "C120", "title": "Velocity on a turbine's axis and expansion of the flow, through the public interface", "statement": "For a turbine with one cylinder of intensity g, no skew and no ground, compute_u at hub+s*shaft is the free wind plus g/2(1+s/sqrt(R^2+s^2)) along the shaft and nothing across; after update_loading with mean thrust coefficient CT it is U-a|U|(1+s/sqrt(R^2+s^2)) along the shaft with the induction a of C106: 0 far upstream, a at the rotor, 2a far downstream, strictly growing. At every point the induced velocity points away from the axis when g<0.", "quantifier": "all histories of the turbine, positions, yaws, winds, loadings and points", "why_tests_cant": "arbitrary histories and a continuum of inputs", "anchors": ["wiz/WindTurbine.py:compute_u", "wiz/WindTurbine.py:update_loading", "wiz/VortexCylinder.py:vc_tang_u"]}
{"id": "C121", "title": "The elementary flows conserve mass and are irrotational", "statement": "Seen as a function of the point, the velocity returned by ring_u (outside the axis and ring zones), by doublet_u (where the cube of the distance exceeds 1e-8), by doublet_line_u for a semi-infinite straight or skewed line (off the strip where it returns 0) and by vc_tang_u with an exact third-kind routine (off the vortex sheet, axis and rim zones) has all its first partial derivatives, zero divergence and zero curl.", "quantifier": "all intensities, radii, orientations and skews, all points outside the stated zones", "why_tests_cant": "a differential identity over a continuum of points; tests only see finite differences", "anchors": ["wiz/VortexRing.py:ring_u", "wiz/VortexDoublet.py:doublet_u", "wiz/VortexDoublet.py:doublet_line_u", "wiz/VortexCylinder.py:vc_tang_u"]}
{"id": "C122", "title": "A wind farm slows the flow upstream of it, more with each row and with the ground", "statement": "windfarm_gridlayout_CTconst returns, at every point, u_z=-U0(1-sqrt(1-CT)) times the sum over the turbines of the grid (and their mirror images with mirror=True) of the blockage factors of the single rotors (C119). Upstream of the first row this is negative and smaller in size than U0(1-sqrt(1-CT)) times half the number of rotors; adding rows, or the ground, strictly slows the flow further. The percentages of the spacing and ground-effect studies follow: the spacing study gives 0 exactly for the single turbine and a positive number for every other farm, the ground study a positive number, and the study with both gives their sum.", "quantifier": "all grid sizes, spacings, hub heights, radii, thrust coefficients in (0,1], wind speeds and points upstream", "why_tests_cant": "sums of any number of elliptic-integral terms over a continuum of points", "anchors": ["wiz/WindFarm.py:windfarm_gridlayout_CTconst", "wiz/article_windfarm_plots/test_Task8_WindFarm_Spacing_NoGround.py:layout_ct", "wiz/article_windfarm_plots/test_Task8_WindFarm_Spacing_NoGround.py:layout", "wiz/article_windfarm_plots/test_Task9_WindFarm_GroundEffect.py:ground_effect", "wiz/article_windfarm_plots/test_Task9_WindFarm_GroundEffect.py:layout_ct_with_ground"]}
{"id": "C123", "title": "Skewed wake: exact results on the rotor and in the far wake", "statement": "For a skewed semi-infinite vortex cylinder of intensity g and skew chi=atan(m), the limit of svc_tang_u as ntheta grows is such that: at the rotor centre the velocity is (g/2 tan(chi/2), 0, g/2); on the rotor diameter across the skew u_x and u_z keep these values; the component along the wake axis is g/2 at every point of the rotor disk and 0 in the rest of the rotor plane; the velocities at two opposite points inside the tube (wake prolonged on both sides) add up to (g tan(chi/2), 0, g); u_x, u_z are even and u_y odd in y; in the far wake the velocity is (g tan(chi/2), 0, g) with an error of at most |g|R(1+|m|)/z, and it vanishes as fast upstream.", "quantifier": "all intensities, radii, skews and points", "why_tests_cant": "integrals of a continuum of filaments at a continuum of points; the unit tests sample them at one skew with finite ntheta", "anchors": ["wiz/VortexCylinderSkewed.py:svc_tang_u", "wiz/VortexCylinderSkewed.py:skew_components", "wiz/VortexCylinderSkewed.py:svc_tang_u_polar"]}
{"id": "C124", "title": "Expansion functions of the yaw article are velocities on the fore-aft diameter", "statement": "For 0<r<1 and m=tan(chi) other than 0, with K the first output of fKzt, the skewed cylinder of intensity g induces at the points (+rR,0,0) and (-rR,0,0) of the rotor an axial velocity of exactly g/2(1+K) and g/2(1-K), no u_y, and u_x=g/2(tan(chi/2)-K/m) and g/2(tan(chi/2)+K/m); K>0 for m>0. Without skew the first output of fKxit is the radial velocity in the rotor plane divided by -g/2.", "quantifier": "all intensities, radii, skews and rotor radii in the stated range, all exact third-kind routines (none needed for fKxit without skew)", "why_tests_cant": "equality of two different integrals for a continuum of parameters", "anchors": ["wiz/VortexCylinderSkewed.py:fKzt", "wiz/VortexCylinderSkewed.py:fKxit", "wiz/VortexCylinderSkewed.py:svc_tang_u"]}
{"id": "C125", "title": "Third-kind elliptic integral: special values", "statement": "At the pairs (0,m), (m,m) and (n,0), with n and m below 1, wherever they stand in the arrays and in whatever company, the routine ellipticPiCarlson run for N iterations returns K(m), E(m)/(1-m) and pi/(2 sqrt(1-n)) with an error of at most B/4^N, B depending on n and m only.", "quantifier": "all arrays, positions in them and numbers of iterations from 2", "why_tests_cant": "the unit tests sample a dozen values of m", "anchors": ["wiz/elliptic.py:ellipticPiCarlson"]}
{"id": "C126", "title": "A row of vortex rings is the vortex cylinder", "statement": "Vortex rings of the same radius, equally spaced along a straight or skewed axis from 0 to height L, each with the circulation the sheet carries over one interval: as their number grows, rings_u converges to a velocity that differs from that of the semi-infinite cylinder (svc_tang_u; vc_tang_u when there is no skew) by at most 2|g|R/(L cos chi) in each component, for every L of at least 2|z|. So any accuracy is reached by a long enough and dense enough row.", "quantifier": "all intensities, radii, skews, regularisation parameters and points outside the zones (axis, circle) in which the ring routine replaces its formula", "why_tests_cant": "a double limit; the unit tests compare 1000 rings at a few points to 1 or 2 decimals", "anchors": ["wiz/VortexRing.py:rings_u", "wiz/VortexCylinderSkewed.py:svc_tang_u", "wiz/VortexCylinder.py:vc_tang_u"]}
{"id": "C127", "title": "A vortex ring far away is a point doublet", "statement": "At a distance a > R from the centre, ring_u and doublet_u with moment Gamma pi R^2 along the axis differ by at most 8 |Gamma| R^4 a/(a-R)^6 in each component: a relative error of the order of (R/a)^2.", "quantifier": "all circulations, radii and points farther than R from the centre, outside the zones in which the two routines replace their formulas", "why_tests_cant": "an asymptotic statement; the unit test checks one distance (20 radii) to 6 percent", "anchors": ["wiz/VortexRing.py:ring_u", "wiz/VortexDoublet.py:doublet_u"]}
{"id": "C128", "title": "A vortex ring near its axis", "statement": "With B=sqrt(R^2+z^2) and r<B, ring_u (polar output) differs from the expansion u_z=Gamma/(2R)(R/B)^3, u_r=3Gamma/(4R)(r z/R^2)(R/B)^5 by at most 9/2 |Gamma| R B r^2/(B-r)^5 and 5 |Gamma| R |z| r^3/(B-r)^6. In the zone r<1e-7 R, where the routine returns the value on the axis, what it returns is within 2e-7 |Gamma|/R of the circle's Biot-Savart velocity.", "quantifier": "all circulations, radii, heights and distances to the axis in the stated ranges", "why_tests_cant": "error bounds over a continuum; the unit test samples one distance to the axis to 3 decimals", "anchors": ["wiz/VortexRing.py:ring_u"]}
{"id": "C129", "title": "A vortex cylinder near its axis", "statement": "With B=sqrt(R^2+z^2) and r<R, vc_tang_u (polar output) differs from the expansion u_r=-gamma/4 r R^2/B^3, u_z=gamma/2(1+z/B) by at most |gamma| R/2 r^3/(B-r)^4 and |gamma| R |z| r^2/((R-r)(B-r)^3). In the zone r<1e-7 R, where the routine returns the value on the axis, what it returns is within 1e-7 |gamma| of the Biot-Savart velocity of the sheet.", "quantifier": "all vorticities, radii, heights and distances to the axis in the stated ranges", "why_tests_cant": "error bounds over a continuum; the unit test samples one distance to the axis to 3 decimals", "anchors": ["wiz/VortexCylinder.py:vc_tang_u"]}
{"id": "C130", "title": "Velocity jump across the sheets of a vortex cylinder", "statement": "For points a inside, b on and c outside the surface r=R at the same height z (|z|>=1e-8 R), vc_tang_u with gamma=g gives u_z(a)-u_z(c) = g for z>0 and 0 for z<0, u_z(b) is the mean of u_z(a) and u_z(c), and u_r is continuous, with errors bounded by 3|g| d(2R+d)/(8z^2) per point for u_z and |g|R d(4R+d)/(4|z|^3) for u_r, d the distance to the surface. For vc_longi_u the circulation 2 pi r u_psi increases by 2 pi R g across the surface for z>0 and not at all for z<0, with the same errors.", "quantifier": "all intensities, radii, heights and distances to the surface", "why_tests_cant": "a statement about limits at a singular surface", "anchors": ["wiz/VortexCylinder.py:vc_tang_u", "wiz/VortexCylinder.py:vc_longi_u"]}
{"id": "C131", "title": "Swirl of the wake at the rotor", "statement": "After update_loading with a circulation Gamma(r) at a tip-speed ratio below 20, compute_u with root=True, longi=True, tang=False (Model VC, no ground effect, wind along the shaft) gives, at a point of the rotor plane at distance r from the hub, the free stream (or nothing with only_ind) plus -Gamma/(4 pi r) along (shaft x (p-hub)), Gamma being the circulation of the first station farther than r: the wake turns against the rotor inside, and there is no swirl outside the wake.", "quantifier": "all turbines reachable through the interface, circulation distributions, tip-speed ratios and points of the rotor plane off the cylinders", "why_tests_cant": "a law over a continuum of points and distributions of any length", "anchors": ["wiz/WindTurbine.py:compute_u", "wiz/WindTurbine.py:update_loading", "wiz/Solver.py:WakeVorticityFromCirculation_Discr", "wiz/VortexCylinder.py:vc_longi_u", "wiz/VortexCylinder.py:vc_root_u"]}
{"id": "C132", "title": "Axial velocity profile at the rotor of a turbine with several cylinders", "statement": "After update_loading with a circulation Gamma at two or more stations (nCyl=None, tip-speed ratio below 20), compute_u (tangential vorticity, Model VC, no ground effect, wind along the shaft) gives, at a point of the rotor plane whose distance to the hub lies between the stations j-1 and j, the free stream slowed along the shaft by a_j |U|, a_j being the induction of momentum theory (with the high-thrust correction) for the effective thrust coefficient of annulus j computed with radii midway between the stations; beyond the last station the wind is not slowed.", "quantifier": "all turbines reachable through the interface, numbers of stations, circulations, tip-speed ratios and points of the rotor plane not within 1e-8 (relative) of a cylinder", "why_tests_cant": "a law over a continuum of points and distributions of any length", "anchors": ["wiz/WindTurbine.py:compute_u", "wiz/WindTurbine.py:update_loading", "wiz/Solver.py:WakeVorticityFromCirculation_Discr", "wiz/VortexCylinder.py:vcs_tang_u"]}
{"id": "C133", "title": "In double precision a farm adds up its turbines to within rounding, and the order of the turbines matters only to that extent", "statement": "In IEEE binary64 arithmetic, whatever the mathematical library does: if no contribution is inf or NaN and there is no overflow, every velocity component returned by velocity_field is a finite number that differs from the exact sum of the turbines' contributions (plus the free stream) by at most ((1+2^-53)^n - 1) times the sum of their absolute values, and reordering the farm changes it by at most twice that. Bitwise independence of the order, which holds in exact arithmetic, is false: three turbines give 1 in one order and 1+2^-52 in another.", "quantifier": "all farms, numbers of turbines, options, free streams, control points, orders, library functions and binary64 values without overflow", "why_tests_cant": "rounding errors accumulate over any number of turbines and any magnitudes; a test sees one farm and cannot distinguish a rounding bound from luck", "anchors": ["wiz/WindFarm.py:velocity_field", "wiz/WindTurbine.py:compute_u"]}
{"id": "C134", "title": "In double precision the wind angle is accurate, and a wind along the shaft is treated as aligned; but the angle can be NaN, and then the yaw of the turbine is ignored", "statement": "In IEEE binary64 arithmetic, for a horizontal shaft and any wind (components 0 or between 2^-100 and 2^100), with an arccos accurate to 1e-9 on [-1,1] and NaN outside: yaw_wind is within 7e-8 rad of the exact angle, with the right sign unless the wind is within rounding of the shaft line, or it is NaN, which happens only within rounding of that line. A wind along the shaft up to rounding is always treated as unskewed and gives exactly the velocity of chi=0. A turbine yawed out of such a wind should be treated as skewed: this is false; for the shaft (5/13,12/13,0) in 8 m/s the dot product of the two unit vectors is 1+2^-52, yaw_wind is NaN, and the turbine is treated as aligned whatever its yaw angle.", "quantifier": "all horizontal shaft directions, wind vectors, yaw angles, turbines and binary64 values in the range", "why_tests_cant": "whether arccos gets an argument above 1 depends on the last bits of the normalisation: about one direction in five, none of those the tests use", "anchors": ["wiz/WindTurbine.py:yaw_wind", "wiz/WindTurbine.py:compute_u", "wiz/WindTurbine.py:set_yaw0_coord"]}
{"id": "C135", "title": "In double precision the velocity on the wake axis is accurate to rounding and never leaves its physical range", "statement": "In IEEE binary64 arithmetic, for a vortex sheet strength, radius and height that are 0 or between 2^-100 and 2^100 in magnitude (radius positive), vc_tang_u returns on the axis a number u_z between 0 and gamma_t (included, not beyond by a rounding error), within 4*2^-53*|gamma_t| of gamma_t/2(1+z/sqrt(z^2+R^2)); the relative error is at most 16*2^-53*(1+(z/R)^2). No relative accuracy holds uniformly: from 2^28 radii upstream the value is exactly 0 while the velocity is not. Neither the regularisation nor the other points of the array matter.", "quantifier": "all sheet strengths, radii, heights (binary64 values in the range), arrays of control points, regularisations and library functions", "why_tests_cant": "a bound on rounding for every triple of doubles, and an exact enclosure that one rounding in 2^53 could break", "anchors": ["wiz/VortexCylinder.py:vc_tang_u"]}
{"id": "C136", "title": "In double precision the velocity next to the wake boundary should be that of the vortex sheet", "statement": "In IEEE binary64 arithmetic vc_tang_u should return, at a point off the sheet, an axial velocity within gamma_t/5 of the Biot-Savart velocity of the cylinder. This is false for the default radius 1: at distance 1+j*2^-51 from the axis, 0<|j|<2^25 (within 1.5e-8 of the sheet), one to eight radii upstream or downstream, 4rR/(R+r)^2 rounds to 1, the third-kind integral returns inf, is replaced by 0, and the result is off by gamma_t/4 (to 2e-4 gamma_t): too large inside upstream and outside downstream, too small inside downstream and outside upstream. Upstream there is no sheet and the velocity is smooth there. Stated for every library whose ellipk is accurate to 1e-6 on [0,0.9] and whose x**(-1/2) has relative accuracy 1e-6 on [2^-60,1].", "quantifier": "all sheet strengths in range, all points of the band, all arrays of control points containing one, all such libraries", "why_tests_cant": "the band is 1.5e-8 radii wide: a test hits it only when a point meant to be at r=R is off by rounding, and then the reference for it is unknown", "anchors": ["wiz/VortexCylinder.py:vc_tang_u"]}
{"id": "C137", "title": "In double precision a thrust coefficient gives momentum theory's velocity along the rotor axis", "statement": "In IEEE binary64 arithmetic: build a turbine facing a wind U along x (no yaw, shaft along x, hub anywhere), load it with one thrust coefficient Ct (2^-20 <= Ct <= 0.89, default single cylinder, infinite tip-speed ratio, 800 R/U >= 21), and ask for the velocity at points of its axis. update_loading succeeds and the computed velocity has exactly zero transverse components and an axial component within U*(6e-15 + 1/(24000 (800R/U)^2)) of U(1 - a(1 + z/sqrt(z^2+R^2))), a=(1-sqrt(1-Ct))/2, z the distance downstream of the hub; at the hub it is U(1-a). The second term is the rotational convection the code keeps although the rotor does not swirl.", "quantifier": "all radii, wind speeds, thrust coefficients and hub positions in range, all arrays of points containing an axis point whose distance z to the hub is 0 or between 2^-99 and 2^99, all mathematical libraries with an arccos accurate to 1e-9, cos 0 = 1 and sin 0 = 0", "why_tests_cant": "every intermediate rounding (circulation, convection, square root, transforms, skew test) must be bounded together for all inputs; tests compare a few decimals", "anchors": ["wiz/WindTurbine.py:WindTurbine.update_loading", "wiz/WindTurbine.py:WindTurbine.compute_u", "wiz/Solver.py:WakeVorticityFromCt", "wiz/VortexCylinder.py:vc_tang_u"]}
{"id": "C138", "title": "A turbine's loading is not changed by writing the arrays given to update_loading", "statement": "The radii, thrust coefficients and circulations given to update_loading, and the array a gamma_t_Ct function returns, are taken by value: any program of constructions, moves, loadings, evaluations and array writes leaves the turbines, and gets the velocities, that the same program leaves and gets when arrays are copied on each call.", "quantifier": "all programs of such operations of any length, all arrays, all nCyl, all gamma_t_Ct functions including those returning their argument or an array of the program", "why_tests_cant": "aliasing over arbitrary histories", "anchors": ["wiz/WindTurbine.py:update_loading", "wiz/WindTurbine.py:compute_u", "wiz/Solver.py:WakeVorticityFromCirculation_Discr"]}
{"id": "C139", "title": "The ground is exactly impermeable in binary64", "statement": "For a turbine with a horizontal shaft and e_vert=[0,0,1], one vortex cylinder, Model VC, the ground effect on and the wind treated as aligned: at every point with z=0 compute_u returns, in the third component, exactly the vertical component of the free stream (exactly zero with only_ind=True) in binary64 arithmetic, not only to rounding; the only other value possible is NaN. The same holds for velocity_field of a farm of such turbines with the free stream passed to it.", "quantifier": "every history of constructor and public calls with finite yaw angles and a hub height between 2^-100 and 2^100 (either sign), every radius, strength, wind, horizontal shaft direction and yaw, every batch of ground points, every mathematical library whose sine and cosine are finite on finite arguments, cosine within [-1,1], and sin(arctan2(-y,x)) = -sin(arctan2(y,x)); every farm of such turbines", "why_tests_cant": "a test compares with a tolerance at some points; the claim is equality of floating-point numbers, for every rounding of every intermediate result", "anchors": ["wiz/WindTurbine.py:compute_u", "wiz/WindTurbine.py:update_yaw_pos", "wiz/Solver.py:WakeVorticityFromCt", "wiz/VortexCylinder.py:vc_tang_u", "wiz/WindFarm.py:velocity_field"]}
{"id": "C140", "title": "Queries made by several threads at once return what each returns alone", "statement": "Threads share turbines and farms and make calls one after the other; their attribute accesses interleave in any order. If every update is about turbines outside a set, then every query (compute_u, yaw_wind, yaw_error, rotor_disk_points, velocity_field, layout) about turbines of the set returns, result or exception, what it returns when it is the only call made on the initial objects. In particular, without updates, all queries do, whatever the order. Every schedule ends, and none gets stuck before all calls have returned. compute_u is not free of side effects (it caches the skew angle): the claim says that the race on the cache is harmless.", "quantifier": "all numbers of threads, all call sequences, all interleavings of attribute accesses, all objects whose gamma_l exists when gamma_t does (true of new turbines and kept by every call)", "why_tests_cant": "schedules cannot be enumerated, and a race shows in one interleaving out of very many", "anchors": ["wiz/WindTurbine.py:compute_u", "wiz/WindTurbine.py:update_loading", "wiz/WindFarm.py:velocity_field"]}
{"id": "C141", "title": "A query made while another thread updates the turbine returns the answer before or the answer after the update", "statement": "If one thread makes a query and another one update, the query returns what it returns before the update or what it returns after it. False: the free stream is added one component at a time, so update_wind between two of these reads gives velocities with the first component of the old wind and the others of the new one, which are neither; this holds for every loaded turbine, all options with only_ind=False and all non-empty sets of points, once the skew angle is cached, when the two winds differ in their first two components.", "quantifier": "all objects, queries, updates and interleavings", "why_tests_cant": "schedules cannot be enumerated", "anchors": ["wiz/WindTurbine.py:compute_u", "wiz/WindTurbine.py:update_wind"]}
{"id": "C142", "title": "An interrupted call can be made again", "statement": "A call is interrupted (KeyboardInterrupt, or an exception raised asynchronously) after any number of attribute accesses. If it is a query, every later query on any object returns what it would have returned without it. If it is an update (update_yaw_pos, update_position, update_wind, set_chi, update_loading, the layout of a farm), making it again has exactly the effect and the result it would have had without the interruption; so has any later update that sets all that the interrupted one sets (the same method on the same objects; update_loading accepted and with a Lambda, a layout of the right shape): nothing of the interrupted call is left.", "quantifier": "all objects, calls, arguments and interruption points; farms of any size, with repeated turbines and entries that are not turbines", "why_tests_cant": "interruption points cannot be enumerated: they are between any two attribute accesses of calls of unbounded length", "anchors": ["wiz/WindTurbine.py:update_loading", "wiz/WindTurbine.py:update_yaw_pos", "wiz/WindTurbine.py:compute_u", "wiz/WindFarm.py:layout"]}
{"id": "C143", "title": "An interrupted update leaves a turbine that answers as before or as after the update", "statement": "After an update is interrupted at any attribute access, every query returns what it returned before the update or what it returns after it. False for update_loading: a turbine with one cylinder, loaded anew with two and interrupted after the first assignment, raises ValueError in compute_u although it answers before and after. What is left is exactly: the first k of gamma_t, gamma_l, Gamma_r, Lambda, r, Ct as the finished call leaves them, for some k, and everything else as before; and nothing changes when the call would be refused.", "quantifier": "all objects, updates, arguments, interruption points and queries", "why_tests_cant": "interruption points cannot be enumerated", "anchors": ["wiz/WindTurbine.py:update_loading", "wiz/WindTurbine.py:compute_u"]}
{"id": "C144", "title": "Planes saved and loaded by several processes at once", "statement": "Several processes call savePlane and loadPlane on the same directory, in any interleaving of the underlying file operations, and may stop for ever at any of them. Wanted: a loadPlane under a name that holds a plane returns a plane saved as a whole under that name (or the one that was there). False: a load during a save raises, or returns new coordinates with old velocities; two saves that overlap leave, when both have ended, a plane of which each has written a part, and later loads return it. True: every array returned comes from a save under that name (or was there before), in the same role; a load that overlaps no save under its name returns the plane of the last save before it, when this one was complete and overlapped no other under the name, whatever crashed before and whatever happens under other names; a load before all saves under its name returns the plane that was there.", "quantifier": "all numbers of processes, all call sequences, all interleavings of opening, writing and reading files, all crash points, all arrays, names and initial directories", "why_tests_cant": "interleavings and crash points of unbounded sequences of calls cannot be enumerated", "anchors": ["coupling_examples/helper_functions.py:savePlane", "coupling_examples/helper_functions.py:loadPlane"]}
{"id": "C145", "title": "The velocity at a point does not depend on the order or the repetition of the points of a query", "statement": "Two queries of compute_u or velocity_field on the same objects whose arrays hold the same set of points, in any order and with any repetitions, both raise the same exception or give the same velocity to the same point, to the last bit in binary64 and whatever the mathematical library; the objects are left the same. So a query row by row, column by column, reversed or with points repeated gives the same field. The same holds for the cylinder functions called directly. (The set itself matters: the iterations for the elliptic integrals stop when the worst point of the query has converged, so adding points may change the last bits.)", "quantifier": "all turbines, farms, options, point sets, orders and repetitions, in the extended reals and in binary64 with any mathematical library", "why_tests_cant": "the elliptic-integral routines iterate on whole arrays with stopping tests over all points: independence of the order holds for every array, not only for tested grids", "anchors": ["wiz/VortexCylinder.py:vc_tang_u", "wiz/WindTurbine.py:compute_u", "wiz/WindFarm.py:velocity_field", "wiz/elliptic.py:ellipticPiCarlson"]}
{"id": "C146", "title": "Coordinates may be arrays of any shapes that numpy can broadcast together", "statement": "If compute_u or velocity_field is given coordinate arrays X, Y, Z of any dimensions, each result has the broadcast shape and holds, at each index, the velocity of the point that the broadcast coordinates have there (the answer to the flat list of these points). True when X has the broadcast shape and is not a scalar. Coordinates that cannot be broadcast together raise ValueError and leave the turbine unchanged. False otherwise: with X smaller than the broadcast shape (for instance a sparse meshgrid), or with three scalars, the call raises as soon as the turbine induces anything (ValueError with a loaded turbine and default options), and can only return constant arrays of the shape of X when nothing is induced.", "quantifier": "all dimensions, shapes without zero dimension and the shape (0,), values, turbines, farms, options; extended reals and binary64", "why_tests_cant": "shapes and dimensions are unbounded", "anchors": ["wiz/WindTurbine.py:compute_u", "wiz/WindTurbine.py:transform_T", "wiz/WindFarm.py:velocity_field"]}
{"id": "C147", "title": "The choice of units does not matter", "statement": "Expressed in other units of length and velocity (lengths times l, velocities and sheet strengths times v, circulations times l*v, angles, Ct and Lambda unchanged), the same calls build the same turbine, and compute_u and velocity_field raise the same exceptions or return the same velocities (times v). True of the constructor and all setters; of update_loading with a finite Lambda below 20, or with the user's function; of compute_u and velocity_field with the models VC (straight and skewed, one or several cylinders, ground, wake removed) and SS without skewed root vortex, and with the models VD and VCFF and the skewed root vortex at points that their absolute tolerances treat alike in both units. False of update_loading without swirl (Lambda >= 20): the tangential convection adds a time to 1, and the answers agree exactly when l = v; and of the skewed root vortex near the hub.", "quantifier": "all positive unit factors l and v, turbines, farms, loadings, options and points, in the extended reals", "why_tests_cant": "unit factors, turbines and points are continuous", "anchors": ["wiz/WindTurbine.py:compute_u", "wiz/WindTurbine.py:update_loading", "wiz/WindFarm.py:velocity_field", "wiz/Solver.py:WakeVorticityFromCirculation_Discr", "wiz/VortexLine.py:vl_semiinf_u", "wiz/VortexDoublet.py:doublet_line_u"]}
{"id": "C148", "title": "A rotor yawed to one side is the mirror image of a rotor yawed to the other side", "statement": "Reflected in a coordinate plane (hub, shaft, vertical direction and wind reflected, yaw and skew angles reversed, same radius, loading and options), the constructor, update_yaw_pos, update_position, update_wind, set_chi and update_loading build the mirror image of the turbine, and compute_u and velocity_field, asked at the reflected points, raise the same exceptions or return the reflected velocities: for the models VC (straight and skewed, one or several cylinders), VCFF, VD and SS, with or without ground and wake removal, on the axis and off it. In particular a turbine whose hub, shaft, vertical and wind lie in a plane gives, yawed by -a, the reflected field of the same turbine yawed by a. The radii are positive numbers, the shaft is at right angles to the vertical, the skew angle is prescribed or the unyawed rotor does not turn its back exactly to the wind, and the swirl (root vortex, longitudinal vorticity: off by default) is left out: off the axis the straight root vortex induces the opposite of the reflected velocity, because the reflection turns the rotation round.", "quantifier": "all turbines, loadings, options without swirl, coordinate planes, yaw angles and points, farms, in the extended reals", "why_tests_cant": "angles, points and turbines are continuous; the skewed velocities are quadratures whose nodes start at pi/2", "anchors": ["wiz/WindTurbine.py:compute_u", "wiz/WindTurbine.py:update_yaw_pos", "wiz/WindTurbine.py:yaw_wind", "wiz/WindFarm.py:velocity_field", "wiz/VortexCylinderSkewed.py:svc_tang_u"]}
{"id": "C149", "title": "The ways of asking the article's vortex model agree", "statement": "For a model made by setupModel of the blockage article (and any OutputVC with a real hub height), fHorz, fVert, fAxial and fRadial give, for any real coordinates, exactly what fU gives at the points (x,0,z), (0,y,z), (0,0,z), (r,0,z0) or (0,r,z0), in the order of the grid (rows of constant z), including exceptions; the line of a plane at x=0 or y=0 is fAxial and its line at z0 is fRadial; and fU answers the turbine's compute_u at the points moved by the hub height.", "quantifier": "all models, hub heights, grids, lines and points", "why_tests_cant": "grids and lines are arbitrary; the same grid must be asked through every accessor", "anchors": ["wiz/article_blockage/helper_functions.py:fU", "wiz/article_blockage/helper_functions.py:fHorz", "wiz/article_blockage/helper_functions.py:fVert", "wiz/article_blockage/helper_functions.py:fAxial", "wiz/article_blockage/helper_functions.py:fRadial", "wiz/article_blockage/helper_functions.py:setupModel"]}
{"id": "C150", "title": "Relative errors of the article's models", "statement": "getModelsRelErr returns one table per model, in the order of the models, with one row per direction and one column per distance: the entry is 100(v-a)/a percent, v the axial velocity of the model and a that of the data, at the point at this distance along the direction theta (-rho sin theta, rho cos theta) or on the line offset by roff; the mean table is the average over the directions. The data's error against itself is 0; a cylinder matched to the centre velocity has no error at the rotor centre in any direction; a model's table does not depend on the other models asked for, nor on U0 and R; a model that does not exist raises 'Model not supported' as soon as there is a direction, and a case without data an AttributeError. Provided there are as many offsets as directions: refuted otherwise, the missing rows are zeros that count in the mean (a model 100% wrong is reported as 50%).", "quantifier": "all data, directions, offsets, distances, lists of models, options; in any arithmetic for the table, over the extended reals for the values", "why_tests_cant": "lists of directions, distances and models are arbitrary, and the splines are arbitrary functions", "anchors": ["wiz/article_blockage/helper_functions.py:getModelsRelErr", "wiz/article_blockage/helper_functions.py:setupModel", "wiz/article_blockage/helper_functions.py:fW"]}
{"id": "C151", "title": "The mirror image of a turning rotor is the rotor turning the other way", "statement": "Seen in a mirror a rotor turns the other way: reflected in a coordinate plane with its rotational speed reversed (Lambda, the circulation of the blades, the longitudinal vorticity and the root vortex change sign, the tangential vorticity does not), update_loading builds the reflected rotor and compute_u and velocity_field, swirl options included, return at the reflected points the reflected velocities. Where the program breaks the symmetry: on the axis of a straight root vortex, for Lambda at or above 20 (no swirl one way, a swirl the other way), and for the longitudinal vorticity of a skewed wake.", "quantifier": "all turbines, loadings with |Lambda|<20 and Lambda<>0, options, coordinate planes, points, farms, in the extended reals", "why_tests_cant": "angles, points, circulations and turbines are continuous; the skewed velocities are quadratures over 180 nodes", "anchors": ["wiz/WindTurbine.py:compute_u", "wiz/WindTurbine.py:update_loading", "wiz/WindFarm.py:velocity_field", "wiz/VortexCylinderSkewed.py:svc_longi_u", "wiz/VortexCylinderSkewed.py:svc_root_u", "wiz/VortexLine.py:vl_semiinf_straight_u", "wiz/Solver.py:WakeVorticityFromCirculation_Discr"]}
{"id": "C152", "title": "The induced velocities are proportional to the vorticity", "statement": "When every vorticity of a turbine (gamma_t, gamma_l, root circulation Gamma_r) is multiplied by a factor k other than 0, geometry, skew angle and options unchanged, `compute_u(..., only_ind=True)` returns k times the velocities, component by component, infinities and NaN included, at every point, for every model (VC, VCFF, VD, SS), one or several cylinders, with or without skew and ground, and the same exception when it raises; the same for WindFarm.velocity_field without a free stream when all its turbines are multiplied. With the factor -1 this is exact in binary64 arithmetic, overflow included, whatever the mathematical library: reversing the vorticity returns the exactly opposite floating-point velocities (zeros of either sign count as zero).", "quantifier": "every turbine state (any arrays, any lengths), options, list of points, factor k different from 0; every farm and heap of objects; in binary64 every turbine, every implementation of the mathematical functions", "why_tests_cant": "Linearity has to hold at singular points, across the branches testing the intensity against 0 (cylinders of zero intensity are skipped), and, in binary64, for every intermediate rounding and overflow: tests compare a few values with a tolerance.", "anchors": ["wiz/WindTurbine.py:compute_u", "wiz/WindFarm.py:velocity_field", "wiz/VortexCylinder.py:vc_tang_u", "wiz/VortexCylinderSkewed.py:svc_tang_u"]}
{"id": "C153", "title": "Far from its wake a turbine acts as a point source: the wind recovers with the square of the distance", "statement": "With the fast model (VCFF), at a point more than `ratioFarField` radii from the hub and not on the wake axis, compute_u returns the free wind plus -(gamma_t R^2/4) d/|d|^3, d the vector from the hub to the point: the deficit at a distance 2r is a quarter of the one at r in the same direction, points away from a turbine that slows the wind, and falls below any threshold at a distance given in closed form. For a turbine loaded with a thrust coefficient the strength follows from the induction factor of the rotor: the velocity added is a |U| R^2/2 d/|d|^3. With ground effect there is a second, equal source at the mirror image of the hub. A farm of such turbines (VCFF and VD may be mixed) adds these terms: with parallel shafts and turbines that slow the wind, the component along the shafts is smaller than the free wind upstream of all rotors, larger downstream of all (outside the wakes), and unchanged level with them; at a distance D from the middle of a farm of half-size L<=D/2, all of them together are one source there of strength sum gamma_t R^2, up to 5.5 (sum |gamma_t| R^2) L/D^3. The doublet model (VD) gives exactly this velocity at every distance, and the vortex cylinder (VC) the same one up to 41 pi |gamma_t| (R/dl)^4 per component at a point at distance dl>=4R from its axis.", "quantifier": "every turbine reachable by the API with one cylinder, unskewed (ground for VCFF only); every orientation, wind, position, radius, intensity, point and list of points; every farm (for VC: an exact integral of the third kind)", "why_tests_cant": "Points, orientations and radii are continuous, and the decay is a statement about arbitrarily large distances.", "anchors": ["wiz/VortexDoublet.py:doublet_line_polar_u", "wiz/VortexDoublet.py:doublet_line_u", "wiz/VortexCylinder.py:vc_tang_u_doublet", "wiz/WindTurbine.py:compute_u", "wiz/WindFarm.py:velocity_field"]}
