# A Rocq model of ebranlard/wiz

## 1. What is modelled

The Python code computes with numpy float64 arrays. The model (`rocq/theories/M_*.v`) is written once,
generically over a record `Num` of arithmetic operations (`Num.v`), and follows the source function by function
and branch by branch; a Python exception is a value of type `result`. Every definition carries a comment with the
file and lines it models and what was simplified. Instances of `Num`:

| instance | meaning | used for |
|---|---|---|
| `XN` (`NumX.v`) | extended reals `Fin r / PInf / MInf / NaN` with numpy's rules for division by zero, roots of negatives, `ellipk(1)=inf`, comparisons with NaN | nearly every theorem: values *and* "is finite / is NaN / raises" |
| `RN` (`NumR.v`) | exact reals (total functions, `x/0` meaningless); `ellipk`, `ellipe` are the complete elliptic integrals as Riemann integrals | auxiliary: values once all guards are discharged in `XN` |
| `FN L` (`NumF.v`) | IEEE binary64 (Flocq): rounding to nearest even, overflow, gradual underflow, signed zeros, infinities, NaN; `L` is an arbitrary mathematical library (cos, arccos, ellipk ...), constrained only where a theorem says so; executable, so a whole farm can be evaluated in the kernel | rounding: C133 and later |
| any `Num` | theorems quantified over every `Num` use no arithmetic law at all, so they hold verbatim of IEEE binary64 | loops, masks, states, histories, files, aliasing |

| model file | source |
|---|---|
| `M_Elliptic.v` | `wiz/elliptic.py` (Carlson RF, RC, RJ, `ellipticPiCarlson`) |
| `M_Line.v` | `wiz/VortexLine.py` |
| `M_Doublet.v` | `wiz/VortexDoublet.py`: closed forms, numerical quadratures, point doublets, doublet lines |
| `M_Cylinder.v` | `wiz/VortexCylinder.py`: tangential (raw and guarded), finite, longitudinal, multi-cylinder, far field |
| `M_Ring.v` | `wiz/VortexRing.py` |
| `M_Misc.v` | `wiz/SelfSimilar.py`, `wiz/VortexPoint.py` |
| `M_Skewed.v` | `wiz/VortexCylinderSkewed.py`, legacy `fV_*`, flow expansions `fKxit`, `fKzt` |
| `M_Solver.v` | `wiz/Solver.py` |
| `M_Turbine.v` | `wiz/WindTurbine.py` |
| `M_Farm.v` | `wiz/WindFarm.py` (heap of turbines, farms as lists of references) |
| `M_Alias.v` | the memory behind `WindTurbine`/`WindFarm`: arrays, views, `np.asarray(..).reshape(3,1)`, layout get/set |
| `M_AliasLoad.v` | the loading arrays a `WindTurbine` shares with its caller: `self.r`, `self.Ct`, `self.gamma_t` as references (`update_loading` with `nCyl=None`, `gamma_t_Ct`) |
| `M_Shape.v` | coordinates as numpy arrays of any shape: broadcasting, the accumulators of the shape of `Xg`, the (3,1) hub vector (`compute_u`, `velocity_field`) |
| `M_Threads.v` | the methods of `WindTurbine` and `WindFarm` as programs of single attribute accesses (WindTurbine.py:108-412, WindFarm.py:24-73), their interleavings and interruptions. Arrays are values; an access is atomic (one bytecode of CPython) |
| `M_Tictoc.v` | `wiz/examples/tictoc.py` |
| `M_PlaneIO.v` | `coupling_examples/helper_functions.py` savePlane/loadPlane (file system with crash points) |
| `M_PlaneConc.v` | the same two functions run by several processes: each file is emptied, then written (one step each); reads are one step; any interleaving, any crash point |
| `M_Curled.v` | `wiz/examples/CurledWake_2D.py` (the three curled-wake models and the main computation) |
| `M_Helpers.v` | `wiz/article_blockage/helper_functions.py` (find_nearest, OutputAD lines, OutputVC, setupModel, farm builders, error measures), `rsquare` of `wiz/article_skew/test_Skew_TangentialVorticity.py`, `Tw2c/Tc2w` of `wiz/examples/VortexCylinderSkewed.py`, `wiz/plotting_functions.py` |
| `M_RelErr.v` | `getModelsRelErr` of `wiz/article_blockage/helper_functions.py` (the splines and the data are parameters) |
| `M_Keys.v` | `wiz/article_blockage/helper_functions.py`: the file names of loadPlane and OutputProj, the dictionary of OutputADLines; the contents of files are not modelled |
| `M_Study.v` | the numbers plotted by `wiz/article_windfarm_plots` (Task8, Task9), for one entry of each loop |

Not modelled, and hence outside every claim:

* plotting (matplotlib, the LIC examples, plotPlane), printing, warnings text, `tostring`/`__repr__`, timing;
* the unit tests and the top-level bodies of the example and article scripts, except the numerical parts listed above;
* loaders of measured/CFD data (pickle, csv), `scipy.interpolate.interp2d` (`OutputAD.fU`), the file contents and interpolants of `OutputProj` and `OutputADLines` (their file names and dictionary are in `M_Keys.v`),
  `np.around` in `get_cmap`; the FLORIS package itself (`/repo/floris` is empty);
* shapes: in all files but `M_Shape.v` a meshgrid is a list of points, and the final `reshape` of each function is the identity on that list; `M_Shape.v` models `compute_u` and `velocity_field` on arrays of any shape (arrays with a zero dimension other than the shape (0,) are outside it), the other functions are modelled on lists only;
* writes through the attributes of a turbine (`wt.r[0]=...`); the sharing of the vectors and of the loading arrays with the caller is modelled (`M_Alias.v`, `M_AliasLoad.v`), each with the other kind of argument passed by value;
* `WakeVorticityFromCirculation_Discr(method=...)` other than `'analytical'` (returns None).

## 2. Trusted base

* Coq 8.16.1's kernel, and the reading of the source: the code is not run here.
* Axioms: `Print Assumptions` of every theorem of MANIFEST.json is recorded in `ASSUMPTIONS.md` (regenerate with
  `tools/assumptions.py`). Only axioms of Coq's standard library occur: `ClassicalDedekindReals.sig_forall_dec`,
  `ClassicalDedekindReals.sig_not_dec`, `FunctionalExtensionality.functional_extensionality_dep` (the real numbers),
  `Classical_Prop.classic` (through Coquelicot and `Reals`), and for the single theorem `C38_minimiser_exists` also
  `Description.constructive_definite_description` and `IndefiniteDescription.constructive_indefinite_description`.
  No axiom, parameter, `Admitted`, functor or module type is ours.
* Arithmetic of `RN`/`XN`: no rounding, overflow, underflow or signed zero; `np.sum` is a left fold; decimal literals
  are the rationals they denote.
* Arithmetic of `FN`: one NaN (no payload), no fused multiply-add, `x**2` is `x*x`, dot products and norms are summed from left to right.
* Oracles: `scipy.special.ellipk/ellipe` are the integrals they document; `scipy.optimize.minimize_scalar` is a function
  parameter (`minim`), constrained, where a theorem needs it, by an explicit hypothesis shown satisfiable
  (`bounded_minimiser`, `C38_minimiser_exists`); a user-supplied `gamma_t_Ct` is an arbitrary function.
* Definitional simplifications are listed at each definition.

## 3. Specification style

`Spec.v` and `SpecBS.v` hold the shared independent specifications (vectors, Biot-Savart integrals, potential doublets,
rotations); specifications used by one property stand at the top of its `P_*.v` file under a heading "Specification".
Neither refers to the model. Property theorems are the `Cnn_*` theorems of `P_*.v`; lemmas are there and in `L_*.v`.
After each group an `Example ..._case`/`..._nonvacuous` exhibits a concrete input meeting the hypotheses.

A property the code violates is not weakened: its English statement stays in `properties.jsonl`, the claim is `partial`,
a theorem `..._refuted` proves the negation or a concrete counterexample, and a theorem `..._partial` (or a
characterisation) gives the exact domain where it holds.

`seeded/LOG.jsonl` records the wrong programs the theorems were tested against (`tools/mutations.py`, `tools/mutate.py`).

## 4. Plan per property

"num" = proved for every `Num`; otherwise in `XN`. "refuted" = the code does not have the property; the note in
MANIFEST.json gives the exact extent.

| id | file | model and proof |
|---|---|---|
| C01 | P_Farm | num; the farm loop is a fold, induction shows it equals the sum of single-turbine queries plus the wind, in list order |
| C02 | P_Farm | XN addition is a commutative monoid (inf and NaN included); permutation and append of the fold |
| C03 | P_Farm | num; heap of Python values, histories of farm operations; refuted (list methods bypass the check), holds for `append` |
| C04 | P_Farm | num; layout set/get as heap operations; round trip when the references are distinct, refuted when a turbine appears twice |
| C05, C06 | P_Farm | num / XN; invariant of the nested loops of `gridLayout` (first k entries final); distinctness from nonzero spacings |
| C07 | P_Farm | num; refuted: documented default spacing raises; explicit spacing proved |
| C08 | P_Grid | whole pipeline gridLayout, update_loading, compute_u reduced to the cylinder kernel at shifted points |
| C09, C10, C11, C13, C14, C84 | P_Turbine | num; the turbine as a state machine, histories of operations; C09 refuted (skew angle survives a later move) with the guarded version, C84 refuted |
| C12 | P_Turbine | num; refuted: the constructor stores Ct and computes no loading |
| C15, C16, C17, C18, C27 | P_Turbine | pointwise over the result array; masks; finite sums of terms; rigid motions commute with the frames (linear algebra in XN lifted from R); C18 refuted beyond a half turn |
| C19-C25 | P_Turbine | rotation matrices and angles; specification by cos/sin and norms only; `nsatz`/`ring`; C23 tilt and C25 backwards wind refuted |
| C26, C85 | P_Ground | mirror symmetry of each kernel about the ground; C85 refuted for root and longitudinal parts |
| C28-C30 | P_Solver | piecewise algebra; derivative of the two branches glued at Ct_c |
| C31-C37, C95 | P_Solver | induction from tip to root with the invariant "running sum = 1-2a(Ct_eff)"; Ct_eff specified by the paper's sums; C32, C33, C37, C95 refuted with the exact domain |
| C38 | P_Solver2 | monotonicity of k -> k(1+k/4lambda^2); any minimiser within tolerance of a unimodal function |
| C39 | P_Solver2 | arrays after the call; refuted when the first radius is 0 |
| C40 | P_Solver2 | both solvers reduced to the momentum induction |
| C41-C43 | P_Elliptic | number of steps; duplication by substitution in the integrals; contraction gives convergence |
| C44 | P_Batch, P_Skewed | num; f(pts)=map f1 pts; refuted where the code branches on the whole array |
| C45-C50, C87, C88 | P_Ring | Biot-Savart integral reduced to K and E by substitution and parts; C49, C87, C88 refuted in part |
| C51-C56, C58 | P_Cylinder2, P_Cylinder3, P_FarField | all divisions, roots and elliptic arguments discharged in XN; values by calculus; C54 differentiates under the integral |
| C57, C89 | P_Polar | both outputs computed and compared; C89 refuted for three composite kernels |
| C59, C78 | P_Longi | third-kind integral as derivative/integral of the solid-angle type function; C59 refuted on the axis |
| C60-C62, C96 | P_Line | improper integral as a limit of integrals; core models bounded; C62 axis and C96 refuted |
| C63-C65, C90, C91, C98, C99 | P_Doublet, P_Quad | antiderivatives and limits; composite trapezoid error by uniform continuity; C90/C91 refuted (wrong coefficient) |
| C66-C68, C76, C77 | P_Skewed | trapezoid of the exact Biot-Savart integrand; C68 refuted near the axis |
| C69, C92 | P_Expansion | Coleman's integral by substitution; C92 refuted with the exact defect |
| C70-C73, C93 | P_Misc | algebra; fold = sum; finite case analysis over models; C93 refuted |
| C74, C75, C94 | P_IO | decimal digits; file map and crash points; C74 years and C94 refuted |
| C79, C103, C104 | P_FarField, P_FarOff | moment expansion with explicit remainder; C104 refuted on the wake axis |
| C80, C97 | P_Accuracy, P_CodeConv | the stopping test in exact arithmetic (refuted); propagation of an error of the third-kind integral and convergence |
| C81, C86 | P_Loading, P_Radii | num / XN; the fields after update_loading; C86 refuted |
| C82, C83 | P_Converge, P_Unskewed | Riemann sums of the continuous integrand; m=0 reduces to the straight cylinder |
| C100-C102 | P_Curled | the lines of the curled-wake example as Biot-Savart half lines; far-downstream limits; C102 refuted |
| C105, C106 | P_Centre | full pipeline Ct -> loading -> velocity at the rotor centre, with one cylinder |
| C107 | P_Helpers | setupModel composed with C105 |
| C108 | P_FarmHelp | farm builders by induction on the loops, superposition from C01 |
| C109 | P_Nearest | argmin by induction; np.interp = broken line through the nodes |
| C110-C113 | P_Errors | sums of squares; scaling; rotations; sorted lists and joined ramps |
| C114 | P_Legacy | the seven outputs against the three frames, from C67, C76, C77, C57 |
| C115 | P_Alias | num; simulation between the memory model and value semantics over all programs; refuted when an array is written after it was handed over |
| C116 | P_Cont | reversed cumulative trapezoid = suffix sums; exact error of the trapezoidal rule for r^-3; Cq option |
| C117 | P_Keys | case keys as decimal strings; binary64 by the standard library's `SpecFloat` where truncation matters |
| C118 | P_Lines | `M_Keys.v`: dictionary look-ups on formatted keys (`'{:04.2f}'` of the exact value), distinctness of keys by reading them back |
| C119 | P_Blockage | signs and bounds of the cylinder's velocity: the integrand as a product of two monotone functions of the distance, one of zero mean outside the tube |
| C120 | P_TurbineAxis | C119's radial part and C51 through `compute_u`, composed with C106; limits along the axis |
| C121 | P_Potential, P_Potential2 | partial derivatives as `is_derive` (SpecField); axisymmetric fields reduced to r- and z-derivatives of the closed forms (differentiation under the integral and vanishing integrals of periodic derivatives); doublets and doublet lines by explicit Hessians |
| C122 | P_Study | sum of the single-rotor factors of C119 over the grid (induction on rows and columns); positivity and monotonicity of the sum; the percentages of the studies by algebra |
| C123 | L_Ellipse, P_RotorDisk | the rows seen from two opposite points add up to rational functions on an ellipse; their integrals by confocal deformation of the ellipse (exact derivative, so constant) and the limit at infinity; the axial component on the disk by moving the point to the centre (or to infinity); bounds on the rows for the far field |
| C124 | P_ForeAft | difference of the rows seen from two opposite points; integration by parts turns it into Coleman's integral, which is fKzt by C69; C123 gives the sum |
| C125 | P_PiSpecial | closed forms of the integral at the special pairs (antiderivatives); C43 for the iteration |
| C126 | P_RingRow | the sheet integrated over the angle first (interchange of integrals), tail bound C/s^2, Riemann sums of the rings |
| C127 | P_RingApprox | third-order Taylor estimate of the inverse cubed distance, integrated over the circle |
| C128 | P_RingApprox | same estimate with the roles of R and r exchanged; circle_velocity for the zone about the axis |
| C129 | P_CylApprox | third-order Taylor estimate of the inverse distance under the angular integrals of C51/C54 (Cr, Cz); straight_sheet for the zone about the axis |
| C130 | P_Jump | the angular integrals of C54/C78 split into a regular part and a Poisson kernel; pointwise bound of the difference of inverse distances |
| C131 | P_Swirl | closed form of each sheet in the rotor plane, sum over the cylinders telescopes with the differences of circulation; single cylinder computed exactly |
| C132 | P_Profile | rotor-plane value of each cylinder (C51), sum over the cylinders outside the point equals the suffix sums of the solver (C31), through compute_u and update_loading |
| C133 | P_Float | superposition for every `Num` (C01) instantiated with binary64, induction on the left-to-right sum with (1+d) factors; refutation by evaluation in the kernel |
| C134 | P_FloatYaw | relative error factors through normalisation and dot product, arccos is 1/2-Hoelder, sign of a rounded difference; refutation by evaluation of the dot product |
| C135 | P_FloatAxis | relative error factors; the rounded square root of a rounded square is the number itself (midpoints), hence z/sqrt(z^2+R^2) stays in [-1,1]; R^2 absorbed beyond 2^28 radii |
| C136 | P_FloatSheet | (R+r)^2 rounds to 4r on the band, so n = 1 exactly and Carlson's RJ is inf; the RF iteration stays finite (magnitude bounds), the remaining terms by absolute errors; the exact value by the jump relation of C130 and the uniqueness of the Biot-Savart velocity |
| C137 | P_FloatChain | products and quotients as exact value times fac n, then absolute errors through 1-C, sqrt, -1+; the frame is a permutation matrix so the transforms are exact; alignment from C134, the axis value from C135; a generic lemma unfolds compute_u for one unskewed cylinder |
| C138 | P_AliasLoad | simulation between references and values, for any program writing no kept array; the effect of each write on each attribute; the profile of C132 with the cylinders of the old solve at the new radii |
| C139 | P_FloatGround | binary64: the frame of a yawed turbine with a horizontal shaft has exact zeros where the vertical meets the horizontal (invariant over histories), so the image of a ground point is its exact mirror image; a*(-b) = -(a*b) bitwise, so the two transverse velocities cancel exactly |
| C140 | M_Threads, P_Threads, P_Threads2 | a logic for programs of attribute accesses: the heap is the initial one up to cached skew angles, the local view records which are certainly cached; each access keeps the invariant of all the other threads. Termination: well-founded descent on the pool of programs. Refinement: the programs run alone are the methods of M_Turbine.v and M_Farm.v |
| C141 | P_Threads2 | refuted: an explicit interleaving for every loaded turbine |
| C142 | P_Interrupt | states reached by each update; a later update reads nothing that they changed. Layouts by induction on the farm |
| C143 | P_Interrupt | refuted in every arithmetic; the states are characterised |
| C144 | P_PlaneConc | schedules of file operations: the executed steps of a call are a prefix of its program; last write to a file. Refuted by three schedules |
| C145 | P_Order | every batch function is one map once the set of points is fixed: the stopping tests are maxima, which depend only on the set (`max_law`, proved for the extended reals and for binary64) |
| C146 | P_Shape | broadcasting specified by `fits`/`reads` (relations), compared with the model's `bshape`/`clip`; the array query is the list query of the points in C order, and C145 makes the order irrelevant. Refuted by scalars and by sparse meshgrids |
| C147 | L_Units, P_Units, P_Units2 | relation `sc w x x'` (x' = w x, w > 0) kept by every operation of the extended reals with the weights multiplied, divided, square-rooted; comparisons of equal weights unchanged; then every kernel, `compute_u`, `velocity_field`, `update_loading`. Refuted where the code adds quantities of different dimensions (ap_conv) or compares a length with a constant |
| C148 | L_Mirror, P_Mirror | relation `sg b x x'` (x' = -x or x' = x) kept by every operation of the extended reals, parities xor-ed; the global reflection becomes the reflection of the sideways axis in the axes of the rotor; quadrature nodes of the skewed cylinder mapped onto themselves reversed by th -> 3 pi - th, and trapz of reversed lists; on the axis the radial velocity is 0 |
| C149 | P_RelErr | the points of each accessor, over the reals, are those of `fU`; the answer is the same query (same list of points, so also the same iteration counts) |
| C150 | M_RelErr, P_RelErr | invariants of the two loops that assign rows (generic arithmetic); the matched centre from C107 through `fU`; counterexample by computation |
| C151 | P_MirrorSwirl, P_MirrorLongi | the parities of C148 with circulation, longitudinal vorticity, Omega and tangent of the skew angle odd; on the axis the longitudinal velocity is NaN on both sides; update_loading with -Lambda computes -Omega, hence the same gamma_t and opposite gamma_l, Gamma_r. Refutation of the skewed longitudinal vorticity without evaluating the 180-term sum: towards the first node of the quadrature the velocity grows like 1/(1-r), and no node of the mirrored quadrature is at the mirrored place (an argument on integers), so (1-r)(u+u') has a non-zero limit |
| C152 | L_Homog, P_Homog | a relation on numbers preserved by sums, differences, opposite, product and quotient by a common factor, and invisible to the tests against zero, is preserved by every kernel, by compute_u and by the farm loop (generic in the arithmetic); instances: multiplication by k in the extended reals, and opposite binary64 numbers (rounding to nearest even is odd; overflow gives opposite infinities) |
| C153 | P_Source | the far-field branch is the straight doublet line (C58), which is a point source in closed form (C64); carried to the public interface by the rotor frame being orthonormal; the cylinder against the source by the far-field estimate of C79 on the Biot-Savart integral (C54); the farm by C01, its blockage by the sign of each term, and a distant farm as one source by bounding the change of d/|d|^3 under a shift of d; the ground by the mirrored control points being the local coordinates of points raised by twice the hub height; thrust to far field by C106 |

None of the properties is outside what an executable model can express.
