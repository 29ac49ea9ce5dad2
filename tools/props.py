#!/usr/bin/env python3
"""Writes /verif/properties.jsonl (one JSON object per line)."""
import json
P=[]
def p(title,statement,quant,why,*anchors):
    P.append(dict(id="C%02d"%(len(P)+1),title=title,statement=statement,quantifier=quant,why_tests_cant=why,anchors=list(anchors)))
W="wiz/"
# ---------------------------------------------------------------- WindFarm
p("Farm field is the superposition of its turbines",
  "WindFarm.velocity_field returns, at every control point, the sum of what every turbine's compute_u(only_ind=True) returns there, plus U0 when U0 is given; an empty farm returns zeros (or U0).",
  "all farms (any number of turbines, any states), all control points, all option values",
  "the number of turbines, their states and the points are unbounded; tests only sample small farms",
  W+"WindFarm.py:WindFarm.velocity_field")
p("Farm concatenation adds induction fields",
  "The induction field of the farm A+B equals the field of A plus the field of B, and reordering the turbines does not change it.",
  "all pairs of farms of distinct turbine objects, all permutations, all points",
  "permutations and farm sizes are unbounded",
  W+"WindFarm.py:WindFarm.velocity_field")
p("A farm only ever holds wind turbines",
  "Whatever sequence of list operations is applied to a WindFarm, every element is a WindTurbine, and a rejected append leaves the farm unchanged.",
  "all finite sequences of constructor/append/extend/insert/+=/item-assignment operations",
  "an invariant over all histories of mutations",
  W+"WindFarm.py:WindFarm.__init__",W+"WindFarm.py:WindFarm.append")
p("Layout setter/getter round trip",
  "After farm.layout=L (with L of shape nWT x 3) farm.layout equals L, every turbine keeps all attributes other than its hub position, objects outside the farm are untouched; a wrongly shaped L raises and changes nothing.",
  "all farms, all layouts, including farms that contain the same turbine object twice",
  "aliasing between list entries and arbitrary sizes",
  W+"WindFarm.py:WindFarm.layout",W+"WindTurbine.py:WindTurbine.update_position")
p("gridLayout places every turbine exactly where documented",
  "gridLayout(nx,dx,nz,dz,h,mirror) returns nz*nx (twice with mirror) turbines; entry i*nx+j is at x=(j-floor(nx/2))*dx, z=i*dz, y=h, and with mirror entry nz*nx+i*nx+j is at the same x,z and y=-h.",
  "all grid sizes, spacings, hub heights",
  "index arithmetic must hold for every nx,nz and every (i,j)",
  W+"WindFarm.py:gridLayout")
p("gridLayout positions are pairwise distinct",
  "With non-zero spacings (and non-zero hub height when mirrored) no two turbines returned by gridLayout share the same position.",
  "all grid sizes and pairs of indices", "pairs of indices over unbounded grids",
  W+"WindFarm.py:gridLayout")
p("gridLayout works with its documented defaults",
  "gridLayout called without zSpacing (its default is None) returns a layout.",
  "all nx, nz", "a default-argument path that fails for all non-empty grids",
  W+"WindFarm.py:gridLayout")
p("Constant-CT grid farm equals the sum of single cylinders",
  "windfarm_gridlayout_CTconst returns the sum over the grid positions of the field of one cylinder of intensity -U0*(1-sqrt(1-CT)) and radius R centred there; it is finite for CT<=1.",
  "all grids, all CT<=1, all control points", "unbounded grids and points",
  W+"WindFarm.py:windfarm_gridlayout_CTconst",W+"VortexCylinder.py:vcs_tang_u")
# ---------------------------------------------------------------- WindTurbine: state
p("compute_u answers for the current yaw and wind (history independence)",
  "What compute_u returns depends only on the current yaw, wind, position and loading, not on earlier calls: a turbine whose yaw/wind was updated after a compute_u answers like a fresh one in the same configuration.",
  "all histories of updates and queries", "a property of call histories (cached skew angle)",
  W+"WindTurbine.py:WindTurbine.compute_u",W+"WindTurbine.py:WindTurbine.update_yaw_pos",W+"WindTurbine.py:WindTurbine.update_wind")
p("compute_u is a query",
  "compute_u does not change anything the user set: only the cached skew angle may change, and every later call (the same or another) gives the answer it would have given without the first.",
  "all turbine states, options and points", "frame condition over all attributes and all states",
  W+"WindTurbine.py:WindTurbine.compute_u")
p("update_loading is all-or-nothing",
  "If update_loading raises, no attribute of the turbine has changed; if it returns, only gamma_t, gamma_l, Gamma_r, Lambda, r and Ct may have changed.",
  "all states, all argument combinations, all inner failures", "every failure point inside the call",
  W+"WindTurbine.py:WindTurbine.update_loading")
p("Ct given to the constructor is honoured",
  "WindTurbine(R,...,Ct=c) is loaded with thrust coefficient c, as documented.",
  "all c, all queries", "the argument is silently ignored for all values",
  W+"WindTurbine.py:WindTurbine.__init__")
p("Loading is required before querying",
  "compute_u raises if and only if the loading is missing or the requested model cannot handle the configuration (non-VC model with skew, with several cylinders or with longitudinal vorticity; unknown model).",
  "all reachable turbine states and options", "exhaustive over the state/option product",
  W+"WindTurbine.py:WindTurbine.compute_u")
p("only_ind differs from the full field by the free stream",
  "compute_u(only_ind=False) equals compute_u(only_ind=True) plus the turbine's wind vector at every point.",
  "all turbines, options, points","all inputs",
  W+"WindTurbine.py:WindTurbine.compute_u")
p("no_wake zeroes the tube and nothing else",
  "With no_wake=True the induced velocity is exactly 0 at the points with axial coordinate >= -0.6R and radial distance < 1.001R from the rotor axis, and is unchanged at every other point.",
  "all turbines, options, points","all inputs",
  W+"WindTurbine.py:WindTurbine.compute_u")
p("Vorticity components superpose",
  "The field with root, tangential and longitudinal components switched on is the sum of the fields of each component alone, and with all off it is zero.",
  "all turbines, option subsets, points","all inputs",
  W+"WindTurbine.py:WindTurbine.compute_u")
p("Translation invariance",
  "Moving hub and control points by the same vector (no ground effect) leaves the returned velocities unchanged.",
  "all turbines, all vectors, all points","all inputs",
  W+"WindTurbine.py:WindTurbine.compute_u")
p("Yaw rotation equivariance",
  "Yawing an unskewed turbine and its wind together by an angle rotates the whole field by this angle about the vertical axis through the hub.",
  "all yaw angles, turbines, points","all angles",
  W+"WindTurbine.py:WindTurbine.compute_u",W+"WindTurbine.py:RotMat_AxisAngle")
# ---------------------------------------------------------------- geometry
p("RotMat_AxisAngle returns rotations",
  "For a unit axis the matrix is orthogonal with determinant 1, fixes the axis, turns vectors perpendicular to it by the given angle, angles add under product, and angle 0 gives the identity.",
  "all unit axes and angles","continuum of inputs",
  W+"WindTurbine.py:RotMat_AxisAngle")
p("transform_T inverts transform",
  "For the cylinder-to-global matrix of any yaw position of a turbine whose shaft and vertical are orthonormal, transform_T undoes transform, both preserve lengths and dot products.",
  "all yaw angles, orthonormal shaft/vertical, all points","continuum of inputs",
  W+"WindTurbine.py:transform_T",W+"WindTurbine.py:transform",W+"WindTurbine.py:WindTurbine.update_yaw_pos")
p("orth_vect returns a unit orthogonal vector",
  "orth_vect(u) is a unit vector perpendicular to u for every non-zero u and raises for the zero vector.",
  "all vectors","case analysis over all of R^3",
  W+"WindTurbine.py:orth_vect")
p("rotor_disk_points draws the rotor circle",
  "Every returned point is at distance R from the hub, in the plane perpendicular to the shaft; the first and last coincide.",
  "all turbines with a unit shaft (tilted or not), all nP","all inputs",
  W+"WindTurbine.py:WindTurbine.rotor_disk_points")
p("The turbine's horizontal reference is horizontal",
  "The horizontal vector derived from shaft and vertical is a unit vector perpendicular to the vertical, in the plane of shaft and vertical (also for a tilted shaft).",
  "all shaft/vertical pairs, tilted or not","continuum of inputs",
  W+"WindTurbine.py:WindTurbine.set_yaw0_coord",W+"WindTurbine.py:WindTurbine.yaw_error")
p("yaw_wind recovers the wind angle",
  "For a wind of any positive speed blowing at horizontal angle theta in (-pi,pi] (with any vertical component) yaw_wind returns theta.",
  "all orthonormal frames, speeds, angles","continuum of inputs",
  W+"WindTurbine.py:WindTurbine.yaw_wind")
p("yaw_error is the yaw relative to the wind",
  "For horizontal wind at angle theta and yaw position y, yaw_error equals y-theta reduced to (-pi,pi], including a rotor turned exactly backwards.",
  "all frames, wind angles, yaw angles","continuum of inputs",
  W+"WindTurbine.py:WindTurbine.yaw_error")
p("Ground plane is impermeable to the tangential vorticity",
  "With ground effect and zero skew the vertical velocity that the tangential vorticity induces on the ground plane y=0 is zero, for every model and any number of cylinders.",
  "all hub heights, models, numbers of cylinders, points of the plane","continuum of inputs",
  W+"WindTurbine.py:WindTurbine.compute_u",W+"VortexCylinder.py:vcs_tang_u")
p("Several cylinders superpose",
  "With model VC the field of a turbine with several cylinders (root vortex off, and ground effect or longitudinal vorticity off) is the sum over the cylinders of the field of the turbine with that single cylinder (same radius and intensities).",
  "all numbers of cylinders, radii, intensities","unbounded number of cylinders",
  W+"WindTurbine.py:WindTurbine.compute_u",W+"VortexCylinder.py:vcs_tang_u",W+"Solver.py:WakeVorticityFromCirculation_Discr")
# ---------------------------------------------------------------- Solver
p("Ct_const_cutoff profile",
  "The profile is CT0 between the cut and the tip radius, goes linearly to 0 at the root and at radius 1, stays between 0 and CT0, and has the length of its input.",
  "all CT0, cuts, radius arrays","continuum of inputs",
  W+"Solver.py:Ct_const_cutoff")
p("Stream-tube induction inverts momentum theory",
  "InductionsFromPrescribedCtCq_ST returns the smaller root a of Ct=4a(1-a), increasing in Ct, and NaN exactly for Ct>1; the tangential induction satisfies Cq=4a'(1-a)lambda_r.",
  "all Ct, Cq, radii","continuum of inputs",
  W+"Solver.py:InductionsFromPrescribedCtCq_ST")
p("High-thrust correction is continuously differentiable and increasing",
  "The induction as a function of the effective Ct (momentum theory below Ct_c, Spera line above) is continuous with continuous derivative at Ct_c, strictly increasing, and real for every Ct.",
  "all Ct","continuum of inputs",
  W+"Solver.py:InductionsFromCirculation_VC_Cont",W+"Solver.py:WakeVorticityFromCirculation_Discr")
p("The discrete solver reproduces the momentum induction at every cylinder",
  "WakeVorticityFromCirculation_Discr with swirl returns cumulative inductions a_i equal to the (Spera corrected) momentum induction of the effective Ct_i, for every number of cylinders.",
  "all numbers of cylinders, circulations, radii, tip speed ratios","induction over an unbounded loop with cumulative sums",
  W+"Solver.py:WakeVorticityFromCirculation_Discr")
p("Solver intensities are finite",
  "With the high-thrust correction the returned gamma_t is finite for every loading (no NaN from the square root).",
  "all loadings","NaN reachable only on rare inputs",
  W+"Solver.py:WakeVorticityFromCirculation_Discr")
p("Without swirl the azimuthal convection term is the documented one",
  "The tangential convection velocity used by the solver is a'_c,i=(Gamma_i+Gamma_{i+1})/(4 pi Omega R_i^2) (Eq. 26).",
  "all circulations, radii","the formula must hold for all inputs",
  W+"Solver.py:WakeVorticityFromCirculation_Discr")
p("Vorticity is conserved along the wake",
  "With swirl, the longitudinal vorticity integrated over all cylinders plus the root vortex is zero; without swirl neither is produced.",
  "all numbers of cylinders and circulations","telescoping sum of unbounded length",
  W+"Solver.py:WakeVorticityFromCirculation_Discr")
p("Cylinders enclose the control points",
  "The cylinder radii derived from strictly increasing positive control radii are strictly increasing, positive, and interleave the control radii (R_i between r_i and r_{i+1}), so the built-in check never fires.",
  "all strictly increasing radius arrays","unbounded arrays",
  W+"Solver.py:WakeVorticityFromCirculation_Discr")
p("A first cylinder of radius 0 is rejected with the documented error",
  "When the given cylinders enclose the control points and the first one has radius 0, the solver raises 'First cylinder at 0, impossible'.",
  "all inputs violating the checks","error path hit on all such inputs",
  W+"Solver.py:WakeVorticityFromCirculation_Discr")
p("Infinite tip-speed ratio means no swirl",
  "With Omega=inf (infinite tip-speed ratio) WakeVorticityFromCt/Gamma return no longitudinal and no root vorticity.",
  "all radii, wind speeds, loadings","depends on the ratio R/U0 over a continuum",
  W+"Solver.py:WakeVorticityFromCt",W+"Solver.py:WakeVorticityFromGamma")
p("Prescribed Ct is met",
  "CirculationFromPrescribedCt returns k>=0 with k(1+k/(4 lambda_r^2))=Ct (k=Ct without swirl), wherever such k lies in the search interval.",
  "all Ct, lambda_r","continuum; existence/uniqueness of the root",
  W+"Solver.py:CirculationFromPrescribedCt")
p("Solver functions do not modify their arguments",
  "None of the solver functions writes into the arrays passed by the caller.",
  "all inputs","aliasing visible only for inputs whose first element is 0",
  W+"Solver.py:InductionsFromCirculation_VC_Cont",W+"Solver.py:WakeVorticityFromCirculation_Cont",W+"Solver.py:WakeVorticityFromCirculation_Discr")
p("Continuous and discrete solvers agree on the uniform disk",
  "Without swirl, the continuous formulation returns the momentum induction of k at every radius.",
  "all radius and circulation arrays","unbounded arrays",
  W+"Solver.py:InductionsFromCirculation_VC_Cont",W+"Solver.py:WakeVorticityFromCirculation_Cont")
# ---------------------------------------------------------------- elliptic
p("Carlson iteration terminates and keeps the shape",
  "ellipticPiCarlson returns for every input after at most 20 iterations of each inner loop, with one value per input, and [] for [].",
  "all input arrays","termination for every input",
  W+"elliptic.py:ellipticPiCarlson")
p("Carlson duplication preserves the integrals",
  "Each iteration of the RF, RC and RJ loops leaves the value of the corresponding complete integral unchanged (up to the accumulated RC terms), so the limit of the iterates is the elliptic integral.",
  "all admissible arguments, all iteration counts","analysis over a continuum",
  W+"elliptic.py:ellipticPiCarlson")
p("ellipticPiCarlson(n,m) converges to the integral",
  "The sequence computed by ellipticPiCarlson converges to PI(n,m)=int_0^{pi/2} dt/((1-n sin^2)sqrt(1-m sin^2)) for n<1, m<1.",
  "all n<1, m<1","analysis over a continuum",
  W+"elliptic.py:ellipticPiCarlson")
p("Evaluating points together or separately gives the same values",
  "Kernel values at a control point do not depend on which other points are in the same array.",
  "all arrays and points","all batches",
  W+"elliptic.py:ellipticPiCarlson",W+"VortexCylinderSkewed.py:svc_root_u_polar",W+"VortexCylinder.py:vc_tang_u")
# ---------------------------------------------------------------- kernels: ring
p("Vortex ring velocity is the Biot-Savart integral",
  "Away from the ring (1e-7) and on the axis or at least 1e-7 R from it (the zones in which the code replaces its formula), ring_u_polar_singular(b), ring_u_polar and ring_u return the Biot-Savart line integral over the circle, given that ellipk/ellipe are the complete elliptic integrals.",
  "all points, radii, circulations","continuum of inputs",
  W+"VortexRing.py:ring_u_polar_singular",W+"VortexRing.py:ring_u_polar_singularb",W+"VortexRing.py:ring_u")
p("The two ring formulations agree",
  "ring_u_polar_singular and ring_u_polar_singularb return the same velocity off axis, and ring_u(epsilon=0) the same as ring_u_polar(epsilon=0).",
  "all points, radii, circulations","continuum of inputs",
  W+"VortexRing.py:ring_u_polar_singular",W+"VortexRing.py:ring_u_polar_singularb",W+"VortexRing.py:ring_u_polar")
p("Ring velocity is finite everywhere and linear in the circulation",
  "ring_u (every epsilon) and ring_u_polar (unregularised or with the default 'Saffman' core) return finite values at every control point, including axis and ring, and scale linearly with Gamma.",
  "all points, parameters","singular points form a measure-zero set tests miss",
  W+"VortexRing.py:ring_u",W+"VortexRing.py:ring_u_polar")
p("Ring symmetries",
  "The ring's axial velocity is even and the radial velocity odd in z, and the field is axisymmetric.",
  "all points, parameters","continuum of inputs",
  W+"VortexRing.py:ring_u")
p("Ring regularisation is self-consistent",
  "For epsilon>0 ring_u and ring_u_polar describe the same regularised ring, every accepted reg_method works and unknown ones are reported.",
  "all epsilon, points, reg_methods","continuum of inputs",
  W+"VortexRing.py:ring_u",W+"VortexRing.py:ring_u_polar")
p("rings_u is a superposition",
  "rings_u returns the sum over the rings of the single ring field at the shifted points; rings with zero intensity contribute nothing.",
  "any number of rings, all points","unbounded",
  W+"VortexRing.py:rings_u")
# ---------------------------------------------------------------- kernels: cylinder
p("Vortex cylinder axial velocity on the axis and the rotor plane",
  "vc_tang_u gives gamma/2(1+z/sqrt(R^2+z^2)) on the axis, and on the rotor disk exactly gamma/2 inside, gamma/4 on the rim (within 1e-8 R of it), 0 outside.",
  "all radii, intensities, points","continuum of inputs",
  W+"VortexCylinder.py:vc_tang_u")
p("Vortex cylinder velocity is finite everywhere",
  "vc_tang_u (epsilon=0) returns finite values at every control point, including axis, rim and the cylinder surface.",
  "all points, R>0","singular sets",
  W+"VortexCylinder.py:vc_tang_u")
p("Vortex cylinder symmetries",
  "u_r is even and u_z-c odd in z with c=gamma/2 for r<R, gamma/4 for r=R and within 1e-8 R of the rim, 0 for r>R; the field is axisymmetric, linear in gamma and invariant under scaling of lengths.",
  "all points, parameters","continuum of inputs",
  W+"VortexCylinder.py:vc_tang_u")
p("Vortex cylinder is a stack of rings",
  "Moving the cylinder's origin changes its field by the field of the rings in between: the axial derivative of the cylinder's velocity is the velocity of a ring of the same intensity (given exact elliptic integrals).",
  "all points off the sheet and outside the zones (1e-7 R of axis and surface) in which the code replaces its formula","analysis over a continuum",
  W+"VortexCylinder.py:vc_tang_u",W+"VortexRing.py:ring_u_polar_singular")
p("A finite cylinder is the difference of two semi-infinite ones",
  "cylinder_tang_u(z1,z2) equals vc_tang_u at z-z1 minus vc_tang_u at z-z2, at least 1e-7 R off the axis and 1e-8 R off r=R.",
  "all points, z1, z2","continuum of inputs",
  W+"VortexCylinder.py:cylinder_tang_u",W+"VortexCylinder.py:vc_tang_u")
p("Raw and guarded cylinder formulas agree",
  "cylinder_tang_semi_inf_u_raw equals vc_tang_u away from axis and r=R.",
  "all points","continuum of inputs",
  W+"VortexCylinder.py:cylinder_tang_semi_inf_u_raw",W+"VortexCylinder.py:vc_tang_u")
p("Cartesian output is the polar output in Cartesian components",
  "For the straight line, the ring, the tangential and the longitudinal cylinder, the skewed tangential cylinder and the skewed root vortex, at every point where the velocity is defined, the Cartesian answer is (u_r cos psi - u_psi sin psi, u_r sin psi + u_psi cos psi, u_z) of the polar answer.",
  "all points, kernels","continuum of inputs",
  W+"VortexCylinder.py:vc_tang_u",W+"VortexLine.py:vl_semiinf_straight_u_polar",W+"VortexCylinderSkewed.py:svc_tang_u_polar",W+"VortexCylinderSkewed.py:svc_longi_u_polar",W+"VortexCylinderSkewed.py:svc_root_u_polar",W+"VortexCylinderSkewed.py:svc_u_polar")
p("Far-field switch selects by distance only",
  "vc_tang_u_doublet equals vc_tang_u within distance r_bar_Cut*R of the origin and the doublet line field beyond, point by point.",
  "all points, arrays","masking over arrays of any length",
  W+"VortexCylinder.py:vc_tang_u_doublet")
p("Longitudinal vorticity gives finite velocities",
  "vc_longi_u returns a finite velocity at every control point off the sheet, including the axis.",
  "all points","singular sets",
  W+"VortexCylinder.py:vc_longi_u_polar")
# ---------------------------------------------------------------- kernels: lines
p("Semi-infinite vortex line is Biot-Savart",
  "vl_semiinf_u (no core) and vl_semiinf_straight_u return the Biot-Savart integral of a semi-infinite straight filament; they agree for a filament along z.",
  "all points off the line, unit directions","improper integral over a continuum",
  W+"VortexLine.py:vl_semiinf_u",W+"VortexLine.py:vl_semiinf_straight_u_polar")
p("Viscous core models 0 and 5 of vl_semiinf_u never exceed the inviscid velocity",
  "With visc_model 0 or 5 vl_semiinf_u returns a velocity, finite, and no larger than the inviscid one.",
  "all points, core parameters","all inputs of the branch fail",
  W+"VortexLine.py:vl_semiinf_u")
p("Root vortex on its axis",
  "vc_root_u/vl_semiinf_straight_u return finite velocities at every point, including the axis r=0.",
  "all points","singular sets",
  W+"VortexLine.py:vl_semiinf_straight_u_polar",W+"VortexCylinder.py:vc_root_u")
# ---------------------------------------------------------------- doublet
p("Doublet-line closed forms equal their integrals",
  "I30, 3*I50, 3*I51, 3*I52 of the semi-infinite line equal the documented improper integrals from 0 to infinity.",
  "all admissible a,b,c","integrals over a continuum",
  W+"VortexDoublet.py:I30",W+"VortexDoublet.py:tI50",W+"VortexDoublet.py:tI51",W+"VortexDoublet.py:tI52",W+"VortexDoublet.py:_integrals_DL_finite")
p("Semi-infinite doublet line is the integral of point doublets",
  "doublet_line_u of a semi-infinite line returns the integral over the line of the point-doublet velocity with density dmz_dz; for m=0 it is a point sink field, equal to doublet_line_polar_u.",
  "all points off the line, skews","integrals over a continuum",
  W+"VortexDoublet.py:doublet_line_u",W+"VortexDoublet.py:doublet_line_polar_u")
p("Doublet fields agree and are finite",
  "doublet_u and doublet_u_polar agree for an axial doublet, are finite everywhere, linear in the moment and odd/even under inversion.",
  "all points, moments","continuum of inputs",
  W+"VortexDoublet.py:doublet_u",W+"VortexDoublet.py:doublet_u_polar")
# ---------------------------------------------------------------- skewed
p("Skewed cylinder at the rotor centre",
  "The axial velocity at the rotor centre of a skewed cylinder is exactly gamma/2, for every skew angle and number of integration points.",
  "all skews, ntheta>=2","numerical quadrature exact for all parameters",
  W+"VortexCylinderSkewed.py:svc_tang_u_polar")
p("Skew and polar projections are rotations",
  "skew_components and polar_components preserve the norm and are inverted by the opposite angle.",
  "all vectors and angles","continuum of inputs",
  W+"VortexCylinderSkewed.py:skew_components",W+"VortexCylinderSkewed.py:polar_components")
p("Skewed root vortex: rotor-plane formula matches the general one",
  "In the rotor plane the analytical branch of svc_root_u_polar returns the same velocity as the general semi-infinite line formula.",
  "all points of the rotor plane, skews","continuum of inputs",
  W+"VortexCylinderSkewed.py:svc_root_u_polar",W+"VortexLine.py:vl_semiinf_u")
p("fKzt is Coleman's integral and the numerical expansion functions are consistent",
  "fKzt returns Coleman's integral; the numerically integrated outputs of fKxit and fKzt satisfy the yaw article's relation Kxit = Kzt*sqrt(1+m^2)/m; fKxit without skew is the un-skewed expansion function, and fKzt without skew raises.",
  "all r in (0,1), m>0","continuum of inputs",
  W+"VortexCylinderSkewed.py:fKxit",W+"VortexCylinderSkewed.py:fKzt")
# ---------------------------------------------------------------- self similar
p("Self-similar induction",
  "ss_u is 0 downstream, equals the cylinder's axis value on the axis upstream, has the sign of gamma_t, is bounded by the axis value and decays with radius.",
  "all points, parameters","continuum of inputs",
  W+"SelfSimilar.py:ss_u")
# ---------------------------------------------------------------- points
p("Vortex point velocity",
  "vp_u is perpendicular to the separation, has magnitude Gamma/(2 pi r), and two equal vortices induce opposite velocities on each other.",
  "all positions, circulations","continuum of inputs",
  W+"VortexPoint.py:vp_u")
p("vps_u is a superposition of vortex points",
  "vps_u returns at each control point the sum over the vortices (except coinciding ones) of the kernel, equal to vp_u without smoothing; the total impulse of mutual induction vanishes.",
  "any number of vortices and points","unbounded double loop",
  W+"VortexPoint.py:vps_u")
p("vps_u accepts exactly the supported smoothing models and kernel orders",
  "vps_u computes with every supported combination of smoothing model and kernel order, and raises with every other.",
  "all shapes, model/order pairs","vacuous check for all inputs",
  W+"VortexPoint.py:vps_u")
# ---------------------------------------------------------------- misc
p("pretty_time returns six characters",
  "pretty_time(t) is a string of exactly 6 characters for every time t.",
  "all times","boundaries of all ranges",
  W+"examples/tictoc.py:pretty_time")
p("Plane files round trip",
  "loadPlane(base) after savePlane(x,y,u,v,base) returns x,y,u,v (u,v divided by U0 when given); saving under another base name does not disturb it, and the last save wins.",
  "all planes, base names, file systems and sequences of saves","unbounded arrays and histories",
  "coupling_examples/helper_functions.py:savePlane","coupling_examples/helper_functions.py:loadPlane")
p("Skewed tangential cylinder is a trapezoidal sum of Biot-Savart rows",
  "svc_tang_u_polar returns, in Cartesian or polar components, the ntheta-point trapezoidal rule over the circumference of the exact Biot-Savart integral along each skewed generator of the sheet.",
  "all points off the sheet, skews, radii, intensities, ntheta>=2","improper integrals over a continuum of points",
  W+"VortexCylinderSkewed.py:svc_tang_u_polar")
p("Skewed longitudinal cylinder is a trapezoidal sum of vortex lines",
  "svc_longi_u_polar returns the ntheta-point trapezoidal rule over the circumference of the velocity of semi-infinite vortex lines of circulation gamma_l*R starting on the rotor circle along the skewed axis, in Cartesian components; with polar_out its azimuthal and axial components are those of that vector.",
  "all points off the sheet, skews, radii, intensities, ntheta>=2","improper integrals over a continuum of points",
  W+"VortexCylinderSkewed.py:svc_longi_u_polar")
p("Longitudinal cylinder is the Biot-Savart integral of its vortex lines",
  "vc_longi_u's velocity is the integral around the circle of the Biot-Savart velocities of the half lines of circulation gamma_l*R per radian parallel to the axis (given exact elliptic integrals).",
  "all intensities, radii, arrays, points off the axis and off the cylinder's surface","improper integrals over a continuum",
  "wiz/VortexCylinder.py:vc_longi_u_polar","wiz/VortexCylinder.py:vc_longi_u")
p("The far field approximates the cylinder beyond the cut, away from the axis of the wake",
  "At every control point beyond r_bar_Cut*R that is at least dl >= 4 R away from the axis of the wake, what vc_tang_u_doublet returns differs from the Biot-Savart velocity of the cylinder by at most 41 pi |gamma_t| (R/dl)^4 in each component, and from what vc_tang_u returns by that plus the error of the elliptic integral; on the upstream axis by at most 3 |gamma_t| R^4/(16 z^4).",
  "all points beyond the cut and >= 4R from the wake axis (but the strips of 1e-8 the code treats apart), all arrays, intensities, radii, cuts", "error bound over an unbounded continuum",
  W+"VortexCylinder.py:vc_tang_u_doublet",W+"VortexDoublet.py:doublet_line_polar_u",W+"VortexCylinder.py:vc_tang_u")
p("ellipticPiCarlson is accurate at its own tolerance",
  "The value ellipticPiCarlson(n,m) returns with its built-in tolerance (1e-12) and iteration limit is PI(n,m) up to a small relative error for every n<1, m<1.",
  "all n<1, m<1","an accuracy statement over a continuum; the exceptional arguments form a set no test hits",
  W+"elliptic.py:ellipticPiCarlson")
p("update_loading replaces the loading completely",
  "After a successful update_loading with a tip-speed ratio, every loading attribute (radii, gamma_t, gamma_l, Gamma_r, Lambda, Ct) is a function of the arguments, the rotor radius and the wind speed only: nothing of an earlier loading survives, and what is stored is what the wake solver returns for the given distribution (by default its mean carried by a single cylinder).",
  "all turbines, all earlier histories, all distributions and options","an invariant over all histories of calls",
  W+"WindTurbine.py:WindTurbine.update_loading")
p("The skewed quadratures converge to the Biot-Savart integral over the sheet",
  "As ntheta grows, svc_tang_u_polar (both output forms) and svc_longi_u_polar (Cartesian output) tend, component by component, to the Biot-Savart velocity of the whole semi-infinite skewed sheet of tangential (longitudinal) vorticity.",
  "all points off the sheet, all skews, radii and intensities; the limit is over all ntheta","a limit statement; a test sees finitely many ntheta",
  W+"VortexCylinderSkewed.py:svc_tang_u_polar",W+"VortexCylinderSkewed.py:svc_longi_u_polar")
p("At zero skew the skewed cylinder is the straight cylinder",
  "With m=0 svc_tang_u_polar and svc_longi_u_polar tend, as ntheta grows, to what vc_tang_u and vc_longi_u return at the same point (given exact elliptic integrals).",
  "all points off the sheet (tangential: on the axis or beyond 1e-7 R of it; longitudinal: off the axis), radii, intensities, arrays","a limit statement relating two independent formulas over a continuum",
  W+"VortexCylinderSkewed.py:svc_tang_u_polar",W+"VortexCylinderSkewed.py:svc_longi_u_polar",W+"VortexCylinder.py:vc_tang_u",W+"VortexCylinder.py:vc_longi_u")
# ---------------------------------------------------------------- claims of the code's documentation that the code does not meet
p("A failing call leaves the turbine unchanged",
  "When compute_u raises, the turbine is left as it was: later successful calls answer as if the failing one had not been made.",
  "all turbine states, options, points and later calls", "all error paths and all later histories",
  W+"WindTurbine.py:WindTurbine.compute_u")
p("Ground plane is impermeable to every component of the vorticity",
  "With ground effect and zero skew the vertical velocity induced on the ground plane y=0 is zero also with the root vortex and the longitudinal vorticity switched on.",
  "all hub heights, models, points of the plane, components", "continuum of inputs",
  W+"WindTurbine.py:WindTurbine.compute_u")
p("The stored cylinders are those the loading was solved for",
  "After a radial loading with several stations, the cylinder radii used by compute_u are the radii for which the solver determined the intensities.",
  "all loadings, numbers of stations", "unbounded number of cylinders",
  W+"WindTurbine.py:WindTurbine.update_loading",W+"Solver.py:WakeVorticityFromCirculation_Discr")
p("Linearly regularised ring is finite and linear in the circulation",
  "ring_u_polar with reg_method 'linear' returns finite values everywhere and scales linearly with Gamma.",
  "all points, parameters", "singular points form a measure-zero set tests miss",
  W+"VortexRing.py:ring_u_polar")
p("Ring velocity scales as 1/length",
  "Scaling the control point, the ring radius and the core size by k divides the ring velocity by k.",
  "all points, parameters, k>0", "continuum of inputs; the exceptional set is thin",
  W+"VortexRing.py:ring_u")
p("Polar outputs of the composite kernels",
  "Also for svc_longi_u_polar, svc_u_polar and rings_u the Cartesian answer is the polar answer in Cartesian components.",
  "all points, parameters", "continuum of inputs",
  W+"VortexCylinderSkewed.py:svc_longi_u_polar",W+"VortexCylinderSkewed.py:svc_u_polar",W+"VortexRing.py:rings_u")
p("Finite doublet-line closed forms equal their integrals",
  "_integrals_DL_finite returns the documented integrals from 0 to L of 1/d^3, 3/d^5, 3x/d^5 and 3x^2/d^5.",
  "all admissible a,b,c,L", "integrals over a continuum",
  W+"VortexDoublet.py:_integrals_DL_finite")
p("Finite doublet line is the integral of point doublets",
  "doublet_line_u of a line of finite length returns the integral over the line of the point-doublet velocity.",
  "all points off the line, skews, lengths", "integrals over a continuum",
  W+"VortexDoublet.py:doublet_line_u")
p("Closed-form fKxit and fKzt satisfy Kxit = Kzt*sqrt(1+m^2)/m",
  "The closed-form outputs of the two flow-expansion functions satisfy the yaw article's relation, and nout selects further documented outputs.",
  "all r in (0,1), m>0, nout", "continuum of inputs",
  W+"VortexCylinderSkewed.py:fKxit",W+"VortexCylinderSkewed.py:fKzt")
p("vps_u checks dimensions",
  "vps_u raises if control points and vortices have different dimensions.",
  "all shapes", "the check is vacuous for all inputs",
  W+"VortexPoint.py:vps_u")
p("Plane files survive crashes",
  "After a crash at any point of savePlane, loadPlane returns either the old or the new plane.",
  "all planes, all crash points", "all crash points",
  "coupling_examples/helper_functions.py:savePlane","coupling_examples/helper_functions.py:loadPlane")
p("Cylinders that do not enclose the control points give a warning",
  "When the given cylinders do not enclose the control points the solver warns and continues.",
  "all inputs violating the check", "error path hit on all such inputs",
  W+"Solver.py:WakeVorticityFromCirculation_Discr")
p("Every documented viscous core model of vl_semiinf_u works",
  "For each documented visc_model 0..5 vl_semiinf_u returns a velocity, finite, and no larger than the inviscid one.",
  "all points, core parameters, models", "all inputs of the branch fail",
  W+"VortexLine.py:vl_semiinf_u")
# ---------------------------------------------------------------- consequences and further code
p("An error of the third-kind integral has a bounded effect, and the Carlson iteration makes the cylinder velocities converge",
  "If the third-kind routine is off by d at a control point's arguments, vc_tang_u is off from the Biot-Savart integral by at most |gamma_t| d/(2 pi) (axial component only) and vc_longi_u by at most |gamma_l| R d/(2 pi r) per component; with N iterations of ellipticPiCarlson's loops both converge to the Biot-Savart integrals, with an error below B/4^N.",
  "all points off the sheet and the special zones, all arrays of companions, all third-kind routines, all N>=2",
  "error propagation over a continuum of inputs; a limit", W+"VortexCylinder.py:vc_tang_u",W+"VortexCylinder.py:vc_longi_u",W+"elliptic.py:ellipticPiCarlson")
p("The numerical quadratures of VortexDoublet converge to the closed forms",
  "As zmax and then nQuad grow, I30_num, I50_num, I51_num and I52_num at (x,y,z,m) tend to I30, tI50/3, tI51/3 and tI52/3 evaluated at a=sqrt(x^2+y^2+z^2), b=m x+z, c=sqrt(m^2+1).",
  "all points off the doublet line, all slopes m, all zmax and nQuad", "a double limit over a continuum of inputs",
  W+"VortexDoublet.py:I30_num",W+"VortexDoublet.py:I50_num",W+"VortexDoublet.py:I51_num",W+"VortexDoublet.py:I52_num",W+"VortexDoublet.py:I30",W+"VortexDoublet.py:tI50",W+"VortexDoublet.py:tI51",W+"VortexDoublet.py:tI52")
p("Sums of point doublets converge to the closed-form doublet line",
  "As zmax and then nQuad grow, doublet_line_u_num tends in every component to doublet_line_u, and doublet_line_polar_u_num tends at every entry of an array of points to doublet_line_polar_u.",
  "all points at a cubed distance of at least 1e-8 from the line, all intensities, slopes, arrays", "a double limit over a continuum of inputs",
  W+"VortexDoublet.py:doublet_line_u_num",W+"VortexDoublet.py:doublet_line_polar_u_num",W+"VortexDoublet.py:doublet_line_u",W+"VortexDoublet.py:doublet_line_polar_u")
p("Trailed-vorticity model of the curled wake is a trapezoidal sum of Biot-Savart half lines",
  "vcl_u returns, for every control point, the trapezoidal rule over the theta array of the y and z velocities (Biot-Savart) of half lines of circulation R*gamma_x(theta) that start on the rim of the yawed disk and run along x, each weighted by 1-exp(-d^2/sigma^2) when sigma is given; the x component of every such line is zero, so nothing is dropped.",
  "all arrays theta, gamma_x, sigma, all radii, yaws and arrays of control points off the lines", "arbitrary array lengths and a continuum of inputs",
  W+"examples/CurledWake_2D.py:vcl_u")
p("The three curled-wake models of the example agree",
  "ve_u is the limit of vcl_u far downstream, for any arrays and also summed over the surfaces as main does; and the vortex-point integration of main (vps_u, smoothing off or Gaussian of order 2) returns the same numbers as the sum of ve_u for a closed uniform theta array.",
  "all yaws, surfaces, theta counts, periodic smoothing lengths, control points away from the ellipse", "a limit, sums of arbitrary length",
  W+"examples/CurledWake_2D.py:ve_u",W+"examples/CurledWake_2D.py:vcl_u",W+"examples/CurledWake_2D.py:main",W+"VortexPoint.py:vps_u")
p("The smoothed curled-wake models are finite everywhere",
  "With a smoothing length sigma, ve_u and vcl_u return finite velocities at every control point, including on the trailed lines where the smoothing factor vanishes.",
  "all arrays, all control points", "all inputs of the branch fail",
  W+"examples/CurledWake_2D.py:ve_u",W+"examples/CurledWake_2D.py:vcl_u")
p("A doublet line approximates the skewed vortex cylinder",
  "A doublet line of intensity gamma_t sqrt(1+m^2) pi R^2 per unit of z along the axis of a wake of slope m (doublet_line_u) gives, at every point at least dl >= 4 R away from that axis, the Biot-Savart velocity of the skewed cylinder and the limit of svc_tang_u (n to infinity) up to 41 pi |gamma_t| (R/dl)^4 in each component.",
  "all slopes, radii, intensities, all points >= 4R from the wake axis", "error bound over an unbounded continuum",
  W+"VortexDoublet.py:doublet_line_u",W+"VortexCylinderSkewed.py:svc_tang_u",W+"WindTurbine.py:compute_u")
p("The far field approximates the cylinder on the axis of the wake",
  "Beyond r_bar_Cut*R on the axis of the wake, vc_tang_u_doublet approximates vc_tang_u.",
  "all points of the wake axis beyond the cut", "all inputs of a continuum",
  W+"VortexCylinder.py:vc_tang_u_doublet",W+"VortexDoublet.py:doublet_line_polar_u")
p("The cylinder intensity is twice the induction at the rotor centre",
  "After any sequence of updates of a turbine with a single tangential cylinder of intensity g, compute_u (model VC, no ground) at the hub gives, along the shaft, the free wind (or 0 with only_ind) plus g/2, for every yaw, wind direction and skew angle that is not a right angle; without skew the whole vector is wind + g/2 shaft, and at every point of the rotor plane off the rim the axial velocity is wind + g/2 inside the rotor and wind outside, plus the same for the image rotor when the ground is on.",
  "all update histories, yaws, winds, skews, ground settings, arrays of points containing the point", "state histories and a continuum of inputs",
  W+"WindTurbine.py:compute_u",W+"VortexCylinderSkewed.py:svc_tang_u",W+"VortexCylinder.py:vc_tang_u")
p("From the thrust coefficient to the velocity at the rotor",
  "For any turbine state, update_loading(Ct) with the default single cylinder and a tip-speed ratio of at least 20 or infinite followed by compute_u at the hub gives wind minus a(CT)*|U| along the shaft, where CT is the mean of the Ct values, a is the momentum-theory (Glauert-corrected above 0.8976) induction of CT(1+e) and e is the code's conversion term; for an infinite tip-speed ratio e<=1e-7.",
  "all update histories, Ct arrays, winds, radii, yaws, skews", "composition of two methods over all states",
  W+"WindTurbine.py:update_loading",W+"WindTurbine.py:compute_u",W+"Solver.py:WakeVorticityFromCt")
p("setupModel with MatchMidVel reproduces the actuator-disk velocity at the rotor centre",
  "setupModel(..., MatchMidVel=True, Model='VC') returns a model whose fAxial velocity at z=0 is exactly the centre velocity of the actuator-disk data, for every yaw (whose skew is not a right angle) with the hub 9 radii or more above the ground, or unyawed with the ground effect and the hub at least one radius above it; an explicit gamma_t overrides it and gives U0 cos(yaw)+gamma_t/2; without either the velocity is U0 (cos(yaw) - a(CT)).",
  "all CT<=1, hub heights, yaws, wind speeds, tip-speed ratios, arrays of z containing 0", "continuum of inputs through the whole pipeline",
  "wiz/article_blockage/helper_functions.py:setupModel","wiz/article_blockage/helper_functions.py:OutputVC",W+"WindTurbine.py:compute_u")
p("Farm builders of the blockage article: layout, loading and superposition",
  "VCFarmFromFloris returns nx*ny turbines, the one of row i and column j at index i*nx+j, at (i*S,(j-nx/2)*S,HH), of radius 1/2, loaded with CTs[j][i] and with the ground effect iff HH<10; a farm without turbines raises IndexError. Each such turbine alone gives wind+gamma/2 at its hub (HH>=1/2). ADFarm2VCFarm returns 1 plus the sum over the turbines of the velocity each induces alone, with the ground effect decided by the height of the last turbine; it raises when there is no turbine or fewer CTs than turbines, and returns zeros for the top line of a single turbine. Turbines in a lateral row at height >= 10 and at least 1 apart do not change one another's axial velocity at the hubs.",
  "all layouts, thrust coefficients in [0,1], user-given intensity functions, arrays of points", "arbitrary farm sizes and a continuum of inputs",
  "wiz/article_blockage/helper_functions.py:VCFarmFromFloris","wiz/article_blockage/helper_functions.py:ADFarm2VCFarm","wiz/article_blockage/helper_functions.py:gamma_CT_fun")
p("Extraction of lines and of the centre value from actuator-disk data",
  "find_nearest returns the first entry nearest to the value and its index (an exact entry when there is one; a NaN entry wins; empty raises ValueError). OutputAD.fCenter is the entry of the plane nearest to the origin, fAxial and fRadial are the broken lines through the column and row of the plane nearest to the requested line, constant beyond the data. The matched model (setupModel with MatchMidVel) and the data agree at z=0.",
  "all strictly increasing grids, all data, all query arrays", "arbitrary array lengths and values",
  "wiz/article_blockage/helper_functions.py:find_nearest","wiz/article_blockage/helper_functions.py:OutputAD","wiz/article_blockage/helper_functions.py:setupModel")
p("Coefficient of determination: range, exact fits and NaNs",
  "rsquare(y,f) returns max(0,1-SSR/SST) and the root mean square error; the coefficient lies in [0,1], is 1 iff the fit is exact, and the error is 0 iff the fit is exact; pairs with a NaN are ignored; arrays of different sizes raise. For constant data with a constant term it returns 0 whatever the fit, even an exact one.",
  "all arrays of any length, with and without constant term", "arbitrary arrays",
  "wiz/article_skew/test_Skew_TangentialVorticity.py:rsquare")
p("Relative error between two induction curves",
  "relerrinduction is 100 times the mean, over 100 equidistant stations between x1 and x2, of |u1-u2|/u1 for the two broken lines; it is at least 0, 0 iff the curves agree at all stations, and unchanged when both curves are scaled by the same positive factor; the _mid and _25 variants are the same error at the single stations x=0 and x=-2.5.",
  "all increasing abscissae, all positive curves, all intervals, all positive factors", "arbitrary arrays and a continuum of inputs",
  "wiz/article_blockage/helper_functions.py:relerrinduction","wiz/article_blockage/helper_functions.py:relerrinduction_mid","wiz/article_blockage/helper_functions.py:relerrinduction_25")
p("Wind and cylinder coordinates of the skewed-cylinder example are inverse rotations",
  "Tw2c rotates a vector by the skew angle about the y axis (or leaves it alone when the switch is off), preserves its length, and Tc2w undoes it, in both orders.",
  "all vectors, angles and switches", "continuum of inputs",
  W+"examples/VortexCylinderSkewed.py:Tw2c",W+"examples/VortexCylinderSkewed.py:Tc2w")
p("Contour levels and colour ramp of the plots are consistent",
  "get_contours returns ordered levels, the filled ones being the lines plus the bounds 0.2 and 1.4; make_colormap joins the colours continuously at every given value; the positions get_cmap passes lie in [0,1], and are strictly increasing from 0 to 1 exactly when minSpeed<0.9 and maxSpeed>1.001.",
  "all CT, colour lists, bounds", "continuum of inputs",
  "wiz/plotting_functions.py:get_contours","wiz/plotting_functions.py:make_colormap","wiz/plotting_functions.py:get_cmap")
p("Legacy functions return one velocity in three frames",
  "fV_Tangential, fV_Trailed and fV_Root return (u_z,u_psi,u_x,u_y,u_zeta,u_xi,u_r): at every point off the wake surface these seven numbers are the components of one velocity in the Cartesian, polar and skewed frames; that velocity is the ntheta-point trapezoidal sum of Biot-Savart rows (tangential) or half-lines (trailed) of a cylinder of radius 1, or the velocity of svc_root_u_polar, whose polar output has the same components. nout returns the first nout of the seven. The three parts add up to svc_u_polar.",
  "all points, skews, intensities, numbers of azimuths >= 2 and of outputs", "continuum of inputs; agreement of three coordinate frames",
  W+"VortexCylinderSkewed.py:fV_Trailed",W+"VortexCylinderSkewed.py:fV_Tangential",W+"VortexCylinderSkewed.py:fV_Root",W+"VortexCylinderSkewed.py:svc_u_polar")
p("A turbine is not changed by writing the arrays it was given",
  "Hub, shaft, vertical and wind vectors given as NumPy arrays are taken by value: any program of constructions, moves, loadings, evaluations, layout changes and array writes leaves the turbines that the same program leaves when arrays are copied on each call.",
  "all programs of such operations of any length, all arrays, layouts in C and Fortran order", "aliasing over arbitrary histories",
  W+"WindTurbine.py:update_position",W+"WindTurbine.py:update_wind",W+"WindFarm.py:WindFarm",W+"WindTurbine.py:WindTurbine")
p("Continuous solver with swirl: momentum balance, rotation term and torque option",
  "With swirl, InductionsFromCirculation_VC_Cont returns a'=k/(4 lambda^2), Ct_KJ=k(1+a'), Ct_rot = 8 times the trapezoidal integral of lambda^2 a'^2/r from the station to the last one, Ct_eff=Ct_KJ-Ct_rot, and the momentum induction of Ct_eff. The tangential induction equals that of the discrete solver, Gamma/(4 pi Omega r^2). For a uniform circulation the rotation term exceeds its exact integral by a second-order error only. Giving Cq changes neither a nor the thrust coefficients, and returns a' and k_Cq with Cq = 4a'(1-a)lambda = k_Cq(1-a)/lambda.",
  "all grids of any length with nonzero radii, all circulations, all Cq", "arbitrary array lengths and values",
  W+"Solver.py:InductionsFromCirculation_VC_Cont",W+"Solver.py:WakeVorticityFromCirculation_Cont",W+"Solver.py:WakeVorticityFromCirculation_Discr")
H="wiz/article_blockage/helper_functions.py:"
p("Reference data: the plane loaded is that of the case asked for",
  "loadPlane reads, for a case (CT in hundredths, hub height in tenths or above 9, tip-speed ratio, yaw, orientation), files that no other case reads; it answers None exactly when the case has no data (free field: vertical plane, or yawed with finite tip-speed ratio; near the ground: yawed, or a tip-speed ratio other than 6 or above 20), and raises when the tip-speed ratio (of at most 20) or the yaw is a float. OutputProj reads the file of the hundredth nearest to CT.",
  "all thrust coefficients, hub heights, tip-speed ratios, yaws and orientations, in exact arithmetic and in binary64", "all keys must be distinct; depends on rounding of CT*100",
  H+"loadPlane",H+"OutputProj")
p("Dictionary of simulated farms: a request finds its own simulation",
  "getSim, getSimTop, getSimCTs find the farm stored for their spacing, layout, CT and HH (the latter to the nearest hundredth) and no other; getSim raises if the number of thrust coefficients is not that of the layout, if a line is missing or if the spacing is not a whole number; for a 1x1 layout the spacing is ignored and getSimTop always raises; get25 is the broken line of the middle line at -2.5; getSimCTs returns the coefficients row by row and the distinct positions in increasing order, divided by the spacing, and raises for a float spacing.",
  "all dictionaries of distinct cases, all requests", "arbitrary dictionaries; distinctness of formatted keys",
  H+"getSim",H+"getSimTop",H+"get25",H+"getSimCTs")
p("A turbine's wake slows the air upstream and inside, and speeds it up beside the wake",
  "vc_tang_u with gamma_t=g gives u_z=g k with, outside the rim zone: upstream of the rotor plane 0<k<1/2 inside the tube's extension (r<R) and 0<k<1/4 for r>=R; in the rotor plane k=1/2 for r<R and 0 for r>R; downstream 1/2<k<1 inside the tube, 1/4<k<1/2 on its surface and -1/4<k<0 outside; for r<R, k increases with z. An error e on the third-kind integral changes u_z by at most |g|e/(2 pi). The radial component has the sign of -g everywhere outside the axis and rim zones (expansion).",
  "all intensities, radii, points and arrays of points, all third-kind routines of error e", "sign of an elliptic-integral expression over a continuum of points",
  W+"VortexCylinder.py:vc_tang_u")
p("Velocity on a turbine's axis and expansion of the flow, through the public interface",
  "For a turbine with one cylinder of intensity g, no skew and no ground, compute_u at hub+s*shaft is the free wind plus g/2(1+s/sqrt(R^2+s^2)) along the shaft and nothing across; after update_loading with mean thrust coefficient CT it is U-a|U|(1+s/sqrt(R^2+s^2)) along the shaft with the induction a of C106: 0 far upstream, a at the rotor, 2a far downstream, strictly growing. At every point the induced velocity points away from the axis when g<0.",
  "all histories of the turbine, positions, yaws, winds, loadings and points", "arbitrary histories and a continuum of inputs",
  W+"WindTurbine.py:compute_u",W+"WindTurbine.py:update_loading",W+"VortexCylinder.py:vc_tang_u")
p("The elementary flows conserve mass and are irrotational",
  "Seen as a function of the point, the velocity returned by ring_u (outside the axis and ring zones), by doublet_u (where the cube of the distance exceeds 1e-8), by doublet_line_u for a semi-infinite straight or skewed line (off the strip where it returns 0) and by vc_tang_u with an exact third-kind routine (off the vortex sheet, axis and rim zones) has all its first partial derivatives, zero divergence and zero curl.",
  "all intensities, radii, orientations and skews, all points outside the stated zones", "a differential identity over a continuum of points; tests only see finite differences",
  W+"VortexRing.py:ring_u",W+"VortexDoublet.py:doublet_u",W+"VortexDoublet.py:doublet_line_u",W+"VortexCylinder.py:vc_tang_u")
p("A wind farm slows the flow upstream of it, more with each row and with the ground",
  "windfarm_gridlayout_CTconst returns, at every point, u_z=-U0(1-sqrt(1-CT)) times the sum over the turbines of the grid (and their mirror images with mirror=True) of the blockage factors of the single rotors (C119). Upstream of the first row this is negative and smaller in size than U0(1-sqrt(1-CT)) times half the number of rotors; adding rows, or the ground, strictly slows the flow further. The percentages of the spacing and ground-effect studies follow: the spacing study gives 0 exactly for the single turbine and a positive number for every other farm, the ground study a positive number, and the study with both gives their sum.",
  "all grid sizes, spacings, hub heights, radii, thrust coefficients in (0,1], wind speeds and points upstream", "sums of any number of elliptic-integral terms over a continuum of points",
  W+"WindFarm.py:windfarm_gridlayout_CTconst",W+"article_windfarm_plots/test_Task8_WindFarm_Spacing_NoGround.py:layout_ct",W+"article_windfarm_plots/test_Task8_WindFarm_Spacing_NoGround.py:layout",W+"article_windfarm_plots/test_Task9_WindFarm_GroundEffect.py:ground_effect",W+"article_windfarm_plots/test_Task9_WindFarm_GroundEffect.py:layout_ct_with_ground")
p("Skewed wake: exact results on the rotor and in the far wake",
  "For a skewed semi-infinite vortex cylinder of intensity g and skew chi=atan(m), the limit of svc_tang_u as ntheta grows is such that: at the rotor centre the velocity is (g/2 tan(chi/2), 0, g/2); on the rotor diameter across the skew u_x and u_z keep these values; the component along the wake axis is g/2 at every point of the rotor disk and 0 in the rest of the rotor plane; the velocities at two opposite points inside the tube (wake prolonged on both sides) add up to (g tan(chi/2), 0, g); u_x, u_z are even and u_y odd in y; in the far wake the velocity is (g tan(chi/2), 0, g) with an error of at most |g|R(1+|m|)/z, and it vanishes as fast upstream.",
  "all intensities, radii, skews and points", "integrals of a continuum of filaments at a continuum of points; the unit tests sample them at one skew with finite ntheta",
  W+"VortexCylinderSkewed.py:svc_tang_u",W+"VortexCylinderSkewed.py:skew_components",W+"VortexCylinderSkewed.py:svc_tang_u_polar")
p("Expansion functions of the yaw article are velocities on the fore-aft diameter",
  "For 0<r<1 and m=tan(chi) other than 0, with K the first output of fKzt, the skewed cylinder of intensity g induces at the points (+rR,0,0) and (-rR,0,0) of the rotor an axial velocity of exactly g/2(1+K) and g/2(1-K), no u_y, and u_x=g/2(tan(chi/2)-K/m) and g/2(tan(chi/2)+K/m); K>0 for m>0. Without skew the first output of fKxit is the radial velocity in the rotor plane divided by -g/2.",
  "all intensities, radii, skews and rotor radii in the stated range, all exact third-kind routines (none needed for fKxit without skew)", "equality of two different integrals for a continuum of parameters",
  W+"VortexCylinderSkewed.py:fKzt",W+"VortexCylinderSkewed.py:fKxit",W+"VortexCylinderSkewed.py:svc_tang_u")
p("Third-kind elliptic integral: special values",
  "At the pairs (0,m), (m,m) and (n,0), with n and m below 1, wherever they stand in the arrays and in whatever company, the routine ellipticPiCarlson run for N iterations returns K(m), E(m)/(1-m) and pi/(2 sqrt(1-n)) with an error of at most B/4^N, B depending on n and m only.",
  "all arrays, positions in them and numbers of iterations from 2", "the unit tests sample a dozen values of m",
  W+"elliptic.py:ellipticPiCarlson")
p("A row of vortex rings is the vortex cylinder",
  "Vortex rings of the same radius, equally spaced along a straight or skewed axis from 0 to height L, each with the circulation the sheet carries over one interval: as their number grows, rings_u converges to a velocity that differs from that of the semi-infinite cylinder (svc_tang_u; vc_tang_u when there is no skew) by at most 2|g|R/(L cos chi) in each component, for every L of at least 2|z|. So any accuracy is reached by a long enough and dense enough row.",
  "all intensities, radii, skews, regularisation parameters and points outside the zones (axis, circle) in which the ring routine replaces its formula", "a double limit; the unit tests compare 1000 rings at a few points to 1 or 2 decimals",
  W+"VortexRing.py:rings_u",W+"VortexCylinderSkewed.py:svc_tang_u",W+"VortexCylinder.py:vc_tang_u")
p("A vortex ring far away is a point doublet",
  "At a distance a > R from the centre, ring_u and doublet_u with moment Gamma pi R^2 along the axis differ by at most 8 |Gamma| R^4 a/(a-R)^6 in each component: a relative error of the order of (R/a)^2.",
  "all circulations, radii and points farther than R from the centre, outside the zones in which the two routines replace their formulas", "an asymptotic statement; the unit test checks one distance (20 radii) to 6 percent",
  W+"VortexRing.py:ring_u",W+"VortexDoublet.py:doublet_u")
p("A vortex ring near its axis",
  "With B=sqrt(R^2+z^2) and r<B, ring_u (polar output) differs from the expansion u_z=Gamma/(2R)(R/B)^3, u_r=3Gamma/(4R)(r z/R^2)(R/B)^5 by at most 9/2 |Gamma| R B r^2/(B-r)^5 and 5 |Gamma| R |z| r^3/(B-r)^6. In the zone r<1e-7 R, where the routine returns the value on the axis, what it returns is within 2e-7 |Gamma|/R of the circle's Biot-Savart velocity.",
  "all circulations, radii, heights and distances to the axis in the stated ranges", "error bounds over a continuum; the unit test samples one distance to the axis to 3 decimals",
  W+"VortexRing.py:ring_u")
p("A vortex cylinder near its axis",
  "With B=sqrt(R^2+z^2) and r<R, vc_tang_u (polar output) differs from the expansion u_r=-gamma/4 r R^2/B^3, u_z=gamma/2(1+z/B) by at most |gamma| R/2 r^3/(B-r)^4 and |gamma| R |z| r^2/((R-r)(B-r)^3). In the zone r<1e-7 R, where the routine returns the value on the axis, what it returns is within 1e-7 |gamma| of the Biot-Savart velocity of the sheet.",
  "all vorticities, radii, heights and distances to the axis in the stated ranges", "error bounds over a continuum; the unit test samples one distance to the axis to 3 decimals",
  W+"VortexCylinder.py:vc_tang_u")
p("Velocity jump across the sheets of a vortex cylinder",
  "For points a inside, b on and c outside the surface r=R at the same height z (|z|>=1e-8 R), vc_tang_u with gamma=g gives u_z(a)-u_z(c) = g for z>0 and 0 for z<0, u_z(b) is the mean of u_z(a) and u_z(c), and u_r is continuous, with errors bounded by 3|g| d(2R+d)/(8z^2) per point for u_z and |g|R d(4R+d)/(4|z|^3) for u_r, d the distance to the surface. For vc_longi_u the circulation 2 pi r u_psi increases by 2 pi R g across the surface for z>0 and not at all for z<0, with the same errors.",
  "all intensities, radii, heights and distances to the surface", "a statement about limits at a singular surface",
  W+"VortexCylinder.py:vc_tang_u",W+"VortexCylinder.py:vc_longi_u")
p("Swirl of the wake at the rotor",
  "After update_loading with a circulation Gamma(r) at a tip-speed ratio below 20, compute_u with root=True, longi=True, tang=False (Model VC, no ground effect, wind along the shaft) gives, at a point of the rotor plane at distance r from the hub, the free stream (or nothing with only_ind) plus -Gamma/(4 pi r) along (shaft x (p-hub)), Gamma being the circulation of the first station farther than r: the wake turns against the rotor inside, and there is no swirl outside the wake.",
  "all turbines reachable through the interface, circulation distributions, tip-speed ratios and points of the rotor plane off the cylinders", "a law over a continuum of points and distributions of any length",
  W+"WindTurbine.py:compute_u",W+"WindTurbine.py:update_loading",W+"Solver.py:WakeVorticityFromCirculation_Discr",W+"VortexCylinder.py:vc_longi_u",W+"VortexCylinder.py:vc_root_u")
p("Axial velocity profile at the rotor of a turbine with several cylinders",
  "After update_loading with a circulation Gamma at two or more stations (nCyl=None, tip-speed ratio below 20), compute_u (tangential vorticity, Model VC, no ground effect, wind along the shaft) gives, at a point of the rotor plane whose distance to the hub lies between the stations j-1 and j, the free stream slowed along the shaft by a_j |U|, a_j being the induction of momentum theory (with the high-thrust correction) for the effective thrust coefficient of annulus j computed with radii midway between the stations; beyond the last station the wind is not slowed.",
  "all turbines reachable through the interface, numbers of stations, circulations, tip-speed ratios and points of the rotor plane not within 1e-8 (relative) of a cylinder", "a law over a continuum of points and distributions of any length",
  W+"WindTurbine.py:compute_u",W+"WindTurbine.py:update_loading",W+"Solver.py:WakeVorticityFromCirculation_Discr",W+"VortexCylinder.py:vcs_tang_u")
p("In double precision a farm adds up its turbines to within rounding, and the order of the turbines matters only to that extent",
  "In IEEE binary64 arithmetic, whatever the mathematical library does: if no contribution is inf or NaN and there is no overflow, every velocity component returned by velocity_field is a finite number that differs from the exact sum of the turbines' contributions (plus the free stream) by at most ((1+2^-53)^n - 1) times the sum of their absolute values, and reordering the farm changes it by at most twice that. Bitwise independence of the order, which holds in exact arithmetic, is false: three turbines give 1 in one order and 1+2^-52 in another.",
  "all farms, numbers of turbines, options, free streams, control points, orders, library functions and binary64 values without overflow",
  "rounding errors accumulate over any number of turbines and any magnitudes; a test sees one farm and cannot distinguish a rounding bound from luck",
  W+"WindFarm.py:velocity_field",W+"WindTurbine.py:compute_u")
p("In double precision the wind angle is accurate, and a wind along the shaft is treated as aligned; but the angle can be NaN, and then the yaw of the turbine is ignored",
  "In IEEE binary64 arithmetic, for a horizontal shaft and any wind (components 0 or between 2^-100 and 2^100), with an arccos accurate to 1e-9 on [-1,1] and NaN outside: yaw_wind is within 7e-8 rad of the exact angle, with the right sign unless the wind is within rounding of the shaft line, or it is NaN, which happens only within rounding of that line. A wind along the shaft up to rounding is always treated as unskewed and gives exactly the velocity of chi=0. A turbine yawed out of such a wind should be treated as skewed: this is false; for the shaft (5/13,12/13,0) in 8 m/s the dot product of the two unit vectors is 1+2^-52, yaw_wind is NaN, and the turbine is treated as aligned whatever its yaw angle.",
  "all horizontal shaft directions, wind vectors, yaw angles, turbines and binary64 values in the range",
  "whether arccos gets an argument above 1 depends on the last bits of the normalisation: about one direction in five, none of those the tests use",
  W+"WindTurbine.py:yaw_wind",W+"WindTurbine.py:compute_u",W+"WindTurbine.py:set_yaw0_coord")
p("In double precision the velocity on the wake axis is accurate to rounding and never leaves its physical range",
  "In IEEE binary64 arithmetic, for a vortex sheet strength, radius and height that are 0 or between 2^-100 and 2^100 in magnitude (radius positive), vc_tang_u returns on the axis a number u_z between 0 and gamma_t (included, not beyond by a rounding error), within 4*2^-53*|gamma_t| of gamma_t/2(1+z/sqrt(z^2+R^2)); the relative error is at most 16*2^-53*(1+(z/R)^2). No relative accuracy holds uniformly: from 2^28 radii upstream the value is exactly 0 while the velocity is not. Neither the regularisation nor the other points of the array matter.",
  "all sheet strengths, radii, heights (binary64 values in the range), arrays of control points, regularisations and library functions",
  "a bound on rounding for every triple of doubles, and an exact enclosure that one rounding in 2^53 could break",
  W+"VortexCylinder.py:vc_tang_u")
p("In double precision the velocity next to the wake boundary should be that of the vortex sheet",
  "In IEEE binary64 arithmetic vc_tang_u should return, at a point off the sheet, an axial velocity within gamma_t/5 of the Biot-Savart velocity of the cylinder. This is false for the default radius 1: at distance 1+j*2^-51 from the axis, 0<|j|<2^25 (within 1.5e-8 of the sheet), one to eight radii upstream or downstream, 4rR/(R+r)^2 rounds to 1, the third-kind integral returns inf, is replaced by 0, and the result is off by gamma_t/4 (to 2e-4 gamma_t): too large inside upstream and outside downstream, too small inside downstream and outside upstream. Upstream there is no sheet and the velocity is smooth there. Stated for every library whose ellipk is accurate to 1e-6 on [0,0.9] and whose x**(-1/2) has relative accuracy 1e-6 on [2^-60,1].",
  "all sheet strengths in range, all points of the band, all arrays of control points containing one, all such libraries",
  "the band is 1.5e-8 radii wide: a test hits it only when a point meant to be at r=R is off by rounding, and then the reference for it is unknown",
  W+"VortexCylinder.py:vc_tang_u")

p("In double precision a thrust coefficient gives momentum theory's velocity along the rotor axis",
  "In IEEE binary64 arithmetic: build a turbine facing a wind U along x (no yaw, shaft along x, hub anywhere), load it with one thrust coefficient Ct (2^-20 <= Ct <= 0.89, default single cylinder, infinite tip-speed ratio, 800 R/U >= 21), and ask for the velocity at points of its axis. update_loading succeeds and the computed velocity has exactly zero transverse components and an axial component within U*(6e-15 + 1/(24000 (800R/U)^2)) of U(1 - a(1 + z/sqrt(z^2+R^2))), a=(1-sqrt(1-Ct))/2, z the distance downstream of the hub; at the hub it is U(1-a). The second term is the rotational convection the code keeps although the rotor does not swirl.",
  "all radii, wind speeds, thrust coefficients and hub positions in range, all arrays of points containing an axis point whose distance z to the hub is 0 or between 2^-99 and 2^99, all mathematical libraries with an arccos accurate to 1e-9, cos 0 = 1 and sin 0 = 0",
  "every intermediate rounding (circulation, convection, square root, transforms, skew test) must be bounded together for all inputs; tests compare a few decimals",
  W+"WindTurbine.py:WindTurbine.update_loading", W+"WindTurbine.py:WindTurbine.compute_u", W+"Solver.py:WakeVorticityFromCt", W+"VortexCylinder.py:vc_tang_u")

p("A turbine's loading is not changed by writing the arrays given to update_loading",
  "The radii, thrust coefficients and circulations given to update_loading, and the array a gamma_t_Ct function returns, are taken by value: any program of constructions, moves, loadings, evaluations and array writes leaves the turbines, and gets the velocities, that the same program leaves and gets when arrays are copied on each call.",
  "all programs of such operations of any length, all arrays, all nCyl, all gamma_t_Ct functions including those returning their argument or an array of the program", "aliasing over arbitrary histories",
  W+"WindTurbine.py:update_loading",W+"WindTurbine.py:compute_u",W+"Solver.py:WakeVorticityFromCirculation_Discr")
p("The ground is exactly impermeable in binary64",
  "For a turbine with a horizontal shaft and e_vert=[0,0,1], one vortex cylinder, Model VC, the ground effect on and the wind treated as aligned: at every point with z=0 compute_u returns, in the third component, exactly the vertical component of the free stream (exactly zero with only_ind=True) in binary64 arithmetic, not only to rounding; the only other value possible is NaN. The same holds for velocity_field of a farm of such turbines with the free stream passed to it.",
  "every history of constructor and public calls with finite yaw angles and a hub height between 2^-100 and 2^100 (either sign), every radius, strength, wind, horizontal shaft direction and yaw, every batch of ground points, every mathematical library whose sine and cosine are finite on finite arguments, cosine within [-1,1], and sin(arctan2(-y,x)) = -sin(arctan2(y,x)); every farm of such turbines",
  "a test compares with a tolerance at some points; the claim is equality of floating-point numbers, for every rounding of every intermediate result",
  W+"WindTurbine.py:compute_u",W+"WindTurbine.py:update_yaw_pos",W+"Solver.py:WakeVorticityFromCt",W+"VortexCylinder.py:vc_tang_u",W+"WindFarm.py:velocity_field")
p("Queries made by several threads at once return what each returns alone",
  "Threads share turbines and farms and make calls one after the other; their attribute accesses interleave in any order. If every update is about turbines outside a set, then every query (compute_u, yaw_wind, yaw_error, rotor_disk_points, velocity_field, layout) about turbines of the set returns, result or exception, what it returns when it is the only call made on the initial objects. In particular, without updates, all queries do, whatever the order. Every schedule ends, and none gets stuck before all calls have returned. compute_u is not free of side effects (it caches the skew angle): the claim says that the race on the cache is harmless.",
  "all numbers of threads, all call sequences, all interleavings of attribute accesses, all objects whose gamma_l exists when gamma_t does (true of new turbines and kept by every call)",
  "schedules cannot be enumerated, and a race shows in one interleaving out of very many",
  W+"WindTurbine.py:compute_u",W+"WindTurbine.py:update_loading",W+"WindFarm.py:velocity_field")
p("A query made while another thread updates the turbine returns the answer before or the answer after the update",
  "If one thread makes a query and another one update, the query returns what it returns before the update or what it returns after it. False: the free stream is added one component at a time, so update_wind between two of these reads gives velocities with the first component of the old wind and the others of the new one, which are neither; this holds for every loaded turbine, all options with only_ind=False and all non-empty sets of points, once the skew angle is cached, when the two winds differ in their first two components.",
  "all objects, queries, updates and interleavings",
  "schedules cannot be enumerated",
  W+"WindTurbine.py:compute_u",W+"WindTurbine.py:update_wind")
p("An interrupted call can be made again",
  "A call is interrupted (KeyboardInterrupt, or an exception raised asynchronously) after any number of attribute accesses. If it is a query, every later query on any object returns what it would have returned without it. If it is an update (update_yaw_pos, update_position, update_wind, set_chi, update_loading, the layout of a farm), making it again has exactly the effect and the result it would have had without the interruption; so has any later update that sets all that the interrupted one sets (the same method on the same objects; update_loading accepted and with a Lambda, a layout of the right shape): nothing of the interrupted call is left.",
  "all objects, calls, arguments and interruption points; farms of any size, with repeated turbines and entries that are not turbines",
  "interruption points cannot be enumerated: they are between any two attribute accesses of calls of unbounded length",
  W+"WindTurbine.py:update_loading",W+"WindTurbine.py:update_yaw_pos",W+"WindTurbine.py:compute_u",W+"WindFarm.py:layout")
p("An interrupted update leaves a turbine that answers as before or as after the update",
  "After an update is interrupted at any attribute access, every query returns what it returned before the update or what it returns after it. False for update_loading: a turbine with one cylinder, loaded anew with two and interrupted after the first assignment, raises ValueError in compute_u although it answers before and after. What is left is exactly: the first k of gamma_t, gamma_l, Gamma_r, Lambda, r, Ct as the finished call leaves them, for some k, and everything else as before; and nothing changes when the call would be refused.",
  "all objects, updates, arguments, interruption points and queries",
  "interruption points cannot be enumerated",
  W+"WindTurbine.py:update_loading",W+"WindTurbine.py:compute_u")
p("Planes saved and loaded by several processes at once",
  "Several processes call savePlane and loadPlane on the same directory, in any interleaving of the underlying file operations, and may stop for ever at any of them. Wanted: a loadPlane under a name that holds a plane returns a plane saved as a whole under that name (or the one that was there). False: a load during a save raises, or returns new coordinates with old velocities; two saves that overlap leave, when both have ended, a plane of which each has written a part, and later loads return it. True: every array returned comes from a save under that name (or was there before), in the same role; a load that overlaps no save under its name returns the plane of the last save before it, when this one was complete and overlapped no other under the name, whatever crashed before and whatever happens under other names; a load before all saves under its name returns the plane that was there.",
  "all numbers of processes, all call sequences, all interleavings of opening, writing and reading files, all crash points, all arrays, names and initial directories",
  "interleavings and crash points of unbounded sequences of calls cannot be enumerated",
  "coupling_examples/helper_functions.py:savePlane","coupling_examples/helper_functions.py:loadPlane")
p("The velocity at a point does not depend on the order or the repetition of the points of a query",
  "Two queries of compute_u or velocity_field on the same objects whose arrays hold the same set of points, in any order and with any repetitions, both raise the same exception or give the same velocity to the same point, to the last bit in binary64 and whatever the mathematical library; the objects are left the same. So a query row by row, column by column, reversed or with points repeated gives the same field. The same holds for the cylinder functions called directly. (The set itself matters: the iterations for the elliptic integrals stop when the worst point of the query has converged, so adding points may change the last bits.)",
  "all turbines, farms, options, point sets, orders and repetitions, in the extended reals and in binary64 with any mathematical library",
  "the elliptic-integral routines iterate on whole arrays with stopping tests over all points: independence of the order holds for every array, not only for tested grids",
  W+"VortexCylinder.py:vc_tang_u",W+"WindTurbine.py:compute_u",W+"WindFarm.py:velocity_field",W+"elliptic.py:ellipticPiCarlson")
p("Coordinates may be arrays of any shapes that numpy can broadcast together",
  "If compute_u or velocity_field is given coordinate arrays X, Y, Z of any dimensions, each result has the broadcast shape and holds, at each index, the velocity of the point that the broadcast coordinates have there (the answer to the flat list of these points). True when X has the broadcast shape and is not a scalar. Coordinates that cannot be broadcast together raise ValueError and leave the turbine unchanged. False otherwise: with X smaller than the broadcast shape (for instance a sparse meshgrid), or with three scalars, the call raises as soon as the turbine induces anything (ValueError with a loaded turbine and default options), and can only return constant arrays of the shape of X when nothing is induced.",
  "all dimensions, shapes without zero dimension and the shape (0,), values, turbines, farms, options; extended reals and binary64",
  "shapes and dimensions are unbounded",
  W+"WindTurbine.py:compute_u",W+"WindTurbine.py:transform_T",W+"WindFarm.py:velocity_field")
p("The choice of units does not matter",
  "Expressed in other units of length and velocity (lengths times l, velocities and sheet strengths times v, circulations times l*v, angles, Ct and Lambda unchanged), the same calls build the same turbine, and compute_u and velocity_field raise the same exceptions or return the same velocities (times v). True of the constructor and all setters; of update_loading with a finite Lambda below 20, or with the user's function; of compute_u and velocity_field with the models VC (straight and skewed, one or several cylinders, ground, wake removed) and SS without skewed root vortex, and with the models VD and VCFF and the skewed root vortex at points that their absolute tolerances treat alike in both units. False of update_loading without swirl (Lambda >= 20): the tangential convection adds a time to 1, and the answers agree exactly when l = v; and of the skewed root vortex near the hub.",
  "all positive unit factors l and v, turbines, farms, loadings, options and points, in the extended reals",
  "unit factors, turbines and points are continuous",
  W+"WindTurbine.py:compute_u",W+"WindTurbine.py:update_loading",W+"WindFarm.py:velocity_field",W+"Solver.py:WakeVorticityFromCirculation_Discr",W+"VortexLine.py:vl_semiinf_u",W+"VortexDoublet.py:doublet_line_u")
p("A rotor yawed to one side is the mirror image of a rotor yawed to the other side",
  "Reflected in a coordinate plane (hub, shaft, vertical direction and wind reflected, yaw and skew angles reversed, same radius, loading and options), the constructor, update_yaw_pos, update_position, update_wind, set_chi and update_loading build the mirror image of the turbine, and compute_u and velocity_field, asked at the reflected points, raise the same exceptions or return the reflected velocities: for the models VC (straight and skewed, one or several cylinders), VCFF, VD and SS, with or without ground and wake removal, on the axis and off it. In particular a turbine whose hub, shaft, vertical and wind lie in a plane gives, yawed by -a, the reflected field of the same turbine yawed by a. The radii are positive numbers, the shaft is at right angles to the vertical, the skew angle is prescribed or the unyawed rotor does not turn its back exactly to the wind, and the swirl (root vortex, longitudinal vorticity: off by default) is left out: off the axis the straight root vortex induces the opposite of the reflected velocity, because the reflection turns the rotation round.",
  "all turbines, loadings, options without swirl, coordinate planes, yaw angles and points, farms, in the extended reals",
  "angles, points and turbines are continuous; the skewed velocities are quadratures whose nodes start at pi/2",
  W+"WindTurbine.py:compute_u",W+"WindTurbine.py:update_yaw_pos",W+"WindTurbine.py:yaw_wind",W+"WindFarm.py:velocity_field",W+"VortexCylinderSkewed.py:svc_tang_u")
p("The ways of asking the article's vortex model agree",
  "For a model made by setupModel of the blockage article (and any OutputVC with a real hub height), fHorz, fVert, fAxial and fRadial give, for any real coordinates, exactly what fU gives at the points (x,0,z), (0,y,z), (0,0,z), (r,0,z0) or (0,r,z0), in the order of the grid (rows of constant z), including exceptions; the line of a plane at x=0 or y=0 is fAxial and its line at z0 is fRadial; and fU answers the turbine's compute_u at the points moved by the hub height.",
  "all models, hub heights, grids, lines and points",
  "grids and lines are arbitrary; the same grid must be asked through every accessor",
  H+"fU",H+"fHorz",H+"fVert",H+"fAxial",H+"fRadial",H+"setupModel")
p("Relative errors of the article's models",
  "getModelsRelErr returns one table per model, in the order of the models, with one row per direction and one column per distance: the entry is 100(v-a)/a percent, v the axial velocity of the model and a that of the data, at the point at this distance along the direction theta (-rho sin theta, rho cos theta) or on the line offset by roff; the mean table is the average over the directions. The data's error against itself is 0; a cylinder matched to the centre velocity has no error at the rotor centre in any direction; a model's table does not depend on the other models asked for, nor on U0 and R; a model that does not exist raises 'Model not supported' as soon as there is a direction, and a case without data an AttributeError. Provided there are as many offsets as directions: refuted otherwise, the missing rows are zeros that count in the mean (a model 100% wrong is reported as 50%).",
  "all data, directions, offsets, distances, lists of models, options; in any arithmetic for the table, over the extended reals for the values",
  "lists of directions, distances and models are arbitrary, and the splines are arbitrary functions",
  H+"getModelsRelErr",H+"setupModel",H+"fW")
p("The mirror image of a turning rotor is the rotor turning the other way",
  "Seen in a mirror a rotor turns the other way: reflected in a coordinate plane with its rotational speed reversed (Lambda, the circulation of the blades, the longitudinal vorticity and the root vortex change sign, the tangential vorticity does not), update_loading builds the reflected rotor and compute_u and velocity_field, swirl options included, return at the reflected points the reflected velocities. Where the program breaks the symmetry: on the axis of a straight root vortex, for Lambda at or above 20 (no swirl one way, a swirl the other way), and for the longitudinal vorticity of a skewed wake.",
  "all turbines, loadings with |Lambda|<20 and Lambda<>0, options, coordinate planes, points, farms, in the extended reals",
  "angles, points, circulations and turbines are continuous; the skewed velocities are quadratures over 180 nodes",
  W+"WindTurbine.py:compute_u",W+"WindTurbine.py:update_loading",W+"WindFarm.py:velocity_field",W+"VortexCylinderSkewed.py:svc_longi_u",W+"VortexCylinderSkewed.py:svc_root_u",W+"VortexLine.py:vl_semiinf_straight_u",W+"Solver.py:WakeVorticityFromCirculation_Discr")
p("The induced velocities are proportional to the vorticity",
"When every vorticity of a turbine (gamma_t, gamma_l, root circulation Gamma_r) is multiplied by a factor k other than 0, geometry, skew angle and options unchanged, `compute_u(..., only_ind=True)` returns k times the velocities, component by component, infinities and NaN included, at every point, for every model (VC, VCFF, VD, SS), one or several cylinders, with or without skew and ground, and the same exception when it raises; the same for WindFarm.velocity_field without a free stream when all its turbines are multiplied. With the factor -1 this is exact in binary64 arithmetic, overflow included, whatever the mathematical library: reversing the vorticity returns the exactly opposite floating-point velocities (zeros of either sign count as zero).",
"every turbine state (any arrays, any lengths), options, list of points, factor k different from 0; every farm and heap of objects; in binary64 every turbine, every implementation of the mathematical functions",
"Linearity has to hold at singular points, across the branches testing the intensity against 0 (cylinders of zero intensity are skipped), and, in binary64, for every intermediate rounding and overflow: tests compare a few values with a tolerance.",
W+"WindTurbine.py:compute_u",W+"WindFarm.py:velocity_field",W+"VortexCylinder.py:vc_tang_u",W+"VortexCylinderSkewed.py:svc_tang_u")
p("Far from its wake a turbine acts as a point source: the wind recovers with the square of the distance",
"With the fast model (VCFF), at a point more than `ratioFarField` radii from the hub and not on the wake axis, compute_u returns the free wind plus -(gamma_t R^2/4) d/|d|^3, d the vector from the hub to the point: the deficit at a distance 2r is a quarter of the one at r in the same direction, points away from a turbine that slows the wind, and falls below any threshold at a distance given in closed form. For a turbine loaded with a thrust coefficient the strength follows from the induction factor of the rotor: the velocity added is a |U| R^2/2 d/|d|^3. With ground effect there is a second, equal source at the mirror image of the hub. A farm of such turbines (VCFF and VD may be mixed) adds these terms: with parallel shafts and turbines that slow the wind, the component along the shafts is smaller than the free wind upstream of all rotors, larger downstream of all (outside the wakes), and unchanged level with them; at a distance D from the middle of a farm of half-size L<=D/2, all of them together are one source there of strength sum gamma_t R^2, up to 5.5 (sum |gamma_t| R^2) L/D^3. The doublet model (VD) gives exactly this velocity at every distance, and the vortex cylinder (VC) the same one up to 41 pi |gamma_t| (R/dl)^4 per component at a point at distance dl>=4R from its axis.",
"every turbine reachable by the API with one cylinder, unskewed (ground for VCFF only); every orientation, wind, position, radius, intensity, point and list of points; every farm (for VC: an exact integral of the third kind)",
"Points, orientations and radii are continuous, and the decay is a statement about arbitrarily large distances.",
W+"VortexDoublet.py:doublet_line_polar_u",W+"VortexDoublet.py:doublet_line_u",W+"VortexCylinder.py:vc_tang_u_doublet",W+"WindTurbine.py:compute_u",W+"WindFarm.py:velocity_field")
with open("/verif/properties.jsonl","w") as f:
    for q in P: f.write(json.dumps(q)+"\n")
print(len(P))
for q in P: print(q["id"],q["title"])
