# Formal model of imodal in Rocq (Coq 8.16.1): design

`/repo` (imodal, Python) is read as text. `/verif/rocq/theories` contains a
shallow Gallina model that mirrors the code function by function, and theorems
about it. `properties.jsonl` lists the properties, `MANIFEST.json` maps them to
theorem names, `seeded/LOG.jsonl` records experiments with wrong programs.

## 1. Conventions

* **Exceptions are values.** `res A := Ok a | Err e` with `e` a Python exception
  class. A function that raises after having mutated something returns the
  mutated state together with the error where the property is about that.
* **Numbers.** Floating-point tensors are modelled by real numbers (`R`), i.e.
  rounding is idealised away. Where NaN/inf or rounding is the point, an explicit
  type is used instead (`fl` = finite / +inf / -inf / NaN for costs; bit-exact
  `SpecFloat` binary32 for time stepping).
* **Tensors.** A tensor is a shape (`list nat`) with an index function; `einsum`,
  `tensordot`, `transpose`, `reshape` ... are modelled as index manipulations, so
  index-order mistakes of the code are visible in the model.
* **External calls.** `torch.linalg.solve`, autograd, ODE solver schedules, scipy,
  random generators and pickle are arguments of the model (functions or lists the
  theorem quantifies over) with their contract as an explicit hypothesis of
  the theorem. Nothing is an axiom. The Examples beside the theorems build one
  solver and one autograd meeting the contracts (`SolverExists.v`,
  `ShootingExample.v`, `MotionExample.v`), so the hypotheses are not empty.
* **Loops** are structural recursions or folds; `while` loops carry fuel and return
  an explicit out-of-fuel value, or are modelled by an inductive relation when
  non-termination is the point (C24, C36, C46).
* **Files**: `*Model.v` definitions only; `Spec*.v` small specifications
  independent from the model; other files are proofs; `Prop*.v` contain the property
  theorems, `Print Assumptions`, and the Examples showing that hypotheses are
  satisfiable.
* A property that the code violates is stated as `..._refuted` (with a witness
  input), together with the strongest true statement found (proved), and listed in
  section 4 (findings).

## 2. Plan per property

| id | model | proof |
|----|-------|-------|
| C01-C03, C07 | manifold trees (leaf containers, empty, compound) over an abstract tensor type; roll/unroll/fill/add/negate | structural induction on trees |
| C04-C06 | state machine of TensorContainer/Manifold with device/dtype/kind-of-sequence fields | invariant over operation lists; refuted by witness histories |
| C08 | K_xx/K_xy over R | exp series, Schur products by induction on the power; definiteness by multiplying with separating polynomials |
| C09, C10 | gauss_kernel and structured fields as index functions | derivable_pt_lim of each entry |
| C11 | KeOps formulas transcribed separately | equality of sums |
| C12, C16 | fields as functions | sum algebra |
| C13, C14 | eta, compute_sks | finite index computation; positivity by a Hermite-type argument |
| C15, C17 | manifold action / inner product / cot_to_vs | sum exchange, oddness of the kernel gradient |
| C18-C22 | each module: field, cost, geodesic control with `solve` as oracle | completing the square |
| C23 | cached-moments state machine | counter-example history; frame lemma for others |
| C24 | iterator state machine | induction; nested loop refutation |
| C25, C26 | shooting plumbing over manifold trees with autograd oracle | induction on trees and steps |
| C27, C28 | evaluation-time schedule, cost/control bookkeeping | induction over schedule; float witness |
| C29-C34 | registration/atlas models over a heap of tensors | frame lemmas, refutations |
| C35-C37 | gradient descent line search, torch optimizer loop over `fl` costs | fuel induction; real analysis for termination |
| C38-C41, C60, C61, C64, C69 | pack/unpack, dictionaries, registries | list induction; refutations |
| C42-C44, C65 | varifold, attachments | kernel positivity (varifold kernel as a squared norm) |
| C45-C47 | AABB over R and `fl` | algebra, lists |
| C48-C51, C66 | polygons, distances, meshes, resampling | continuous angle lifting (C48), convexity, vector algebra |
| C52-C59, C62, C67 | image sampling, grids, rotations, generated shapes | algebra, lists |
| C63, C68 | file dispatch, text and pickle formats | induction over files |
| C70, C71 | translated scenes | equality of the whole results, by induction on module trees and steps |
| C72 | the same, with the derivative along the translation | Noether's argument at every stage of the schemes |
| C73-C76 | deformation grids, factory, files of fields, affine maps | index arithmetic, induction on histories |
| C77 | moving points follow the total field of the modules | the envelope argument on top of C19, one identity per step |
| C78 | distances under shooting; distinct points stay distinct when controls are bounded | Lipschitz bounds of the kernels, induction on steps; counterexample without the bound |
| C79, C80 | rotating and translating the scene | equivariance of kernels, actions and costs by structural induction on modules; induction on steps; counterexample for LocalScaling |
| C81 | the Hamiltonian is differentiable wherever it can be computed | calculus of differentiable families; success of the exact solves gives positive definiteness |
| C82 | shooting succeeds as long as the geodesic controls exist | first failing step of a run |
| C83 | deformed templates and costs of an atlas, its modes and hypertemplate | induction on the subjects; alikeness of models used earlier |
| C84 | precompute callbacks, as functions of heap and model | unfolding of one evaluation; induction on the subjects; counterexample through C80 and C82 |
| C85 | the values of reduce | inversion of one evaluation; shooting theorems C25, C28 for the states; counterexample by computation |
| C86 | exact solutions of the equations of shooting, their energy | derivative along the curve is a symplectic product with itself; mean value theorem |
| C87 | angular momentum of exact solutions and of torch_euler trajectories | rotations as curves, invariance of the Hamiltonian (C79), derivative at 0; explicit witness for the refutation |
| C88 | two compounds with the same modules, listed or nested otherwise | sums over leaves; uniqueness of the maximiser (C19); induction on the steps of the scheme, the phase of one being a permutation of that of the other |
| C89 | 'fft' and the resizing of images in the L2 attachment | Parseval by induction on the dimensions from sums of roots of unity; index arithmetic; explicit volumes |
| C90 | the states of shoot() against the exact solution, for it -> infinity | local error by the mean value theorem, bounded speed by compactness, slopes of the three schemes near the velocity, discrete Gronwall induction |
| C91 | constructors of Manifold and CompoundManifold | case analysis on the given parts; shared_property of a concatenation |
| C92 | clone, deepcopy, fill | relation `copied` by induction on the tree |
| C93 | to_, fill_*_zeros, fill_*_randn, *_requires_grad_ | the same relation, with other maps on tensors, devices and dtypes |
| C94 | the methods of manifolds on references into a heap of storages | simulation of the model by values, storages tracked by a predicate kept by every call |
| C95 | the same, two manifolds and in-place writes | invariant `live` and `apart` over histories; explicit holders for fills without copy |
| C96 | set_manifold with opposite moments, compute_geodesic_control, shoot | the Hamiltonian is even in the moments; time reversal of solutions; first-order error with a perturbed start |
| C97 | fill_controls, field_generator, cost, compute_geodesic_control | the bilinear form behind C18-C20: the field at a point is the form against the geodesic controls of a one-landmark probe; Cauchy-Schwarz |
| C98 | multiplying the moments of any state, geodesic controls, exact solutions and fixed-step runs | controls by uniqueness of the maximiser; Hamilton's equations and scheme steps under diagonal changes of the phase; explicit witness for torch_euler |
| C99 | OptimizerTorch.optimize, gd and SGD steps, OptimizerScipy.optimize with the parameters they write | optimizers as interaction trees (strategies); the loop refines the one of C37; gd steps refine C35; witnesses for the refutations |
| C100 | creation of the torch optimizer and reset | induction over histories of calls |
| C101 | Fitter's callback, its display, attributes of gd | induction over the calls; refutations |
| C102 | registration evaluation, attachments | C80 (shooting commutes with rigid motions), C79 (cost of geodesic controls), invariance of the attachments by induction over compounds; refinement of the evaluation through the end state |
| C103 | every module, fields, geodesic controls, Hamiltonian, shooting | induction over compounds: the field of the module in the other unit; uniqueness of the maximiser for the controls; weighted Hamiltonian flows for the motion and the schemes |
| C104 | optimizer gd, torch SGD, OptimizerTorch.optimize | gradient of the placed cost from differentiability along lines and orthogonality; step lengths and trials correspond by induction over the line search, the steps and the loop of optimize |
| C105 | registration evaluation, attachments | pieces of varifolds multiplied (centres by u, edges by u, normals by u*u), induction over compounds; C103 for the shooting; refinement of the evaluation through the end state |
| C106 | area_side, point_side, is_shape_closed, close_shape | sign of the determinant is the coordinate across the line; case analysis |
| C107 | Fitter + OptimizerGradientDescent/OptimizerTorch on RegistrationModel.evaluate | refinement: writing moments in the heap refills the model (heap frame lemmas); C102 for the costs, C104_*_where_smooth for the run |
| C108 | silent modules in compounds, shoot (shared model) | leaves of a compound split into modules and passengers: geodesic controls by maximality of the gain; Hamilton's equations: the Hamiltonian does not depend on passengers' descriptors while their moments vanish; generic lemma on trajectories related by a relation closed under sums and multiples |
| C109 | closures of LocalScaling and LocalRotation (planar circle, tetrahedron and cross product), fields and their Jacobians at the centre | exact evaluation of the Gaussian sums at the centre; the third of a turn permutes the support and the vectors; C77_points for the motion of the centre, by induction on the steps |
| C110 | `registration`, `evaluate`, `fit_costs`, `gd_steps_n` on a problem and on the same problem in another unit of length (SpecFitUnits: `factors`, `problem_in_units`) | C105 applied to every value of the moments written into the heap, then C104 (gradient descent on a rescaled cost) for the steps |
| C111 | `new_atlas`, `evaluate_atlas`, `evaluate_subjects`, `append_in_dict` (AtlasModel.v, RegistrationModel.v) | SpecAtlasElsewhere.v says subject by subject what corresponds; induction over the subjects, each costed by C102 or C105; what an atlas just built holds by C83 lemmas; example with two subjects, three atlases |
| C112 | `evaluate_atlas`, `evaluate_subjects`, `append_in_dict` (AtlasModel.v) | the costs of the subjects one by one; permutations of the dictionaries of costs through C84_atlas_costs; the sum of all the lists of a dictionary is additive under append_in_dict; C30 for the subjects whose tensors are kept |
| C113 | `evaluate_atlas`, `evaluate`, `optimize` with `sgd_strat` and `gd_strat`; the moments of all subjects as one group of parameters (SpecJoint) | difference of costs from C112 and the frame of the writes in distinct tensors; gradient restricted to a block, uniqueness of gradients; induction over the iterations; two parabolas for the refutation |
| C114 | `registration`, `evaluate`, `deformables_compute_deformed`, `attachment_costs`; problems listed in two orders (SpecShuffle: a list of places for the objects, a permutation of the modules) | the silent modules and the modules form two models with permuted leaves: C88 gives the same costs and permuted final states; each attachment is read on the values of its object; sums do not depend on the order |
| C115 | Fits of registrations (construction, moments, evaluation, shooting, gd and fixed-step optimisers) whose objects, modules and parameter tensors are listed in another order | Gradients of costs that agree through a change of order correspond; induction over line searches and iterations; the moments of the reordered model are picked from the original's; C114 for the costs; example with two points and two translations in closed form |
| C116 | the coefficients of all modules multiplied by a number (`SpecCoeff.v`: `dearer`, `at_price`) | the cost is a quadratic form times k with the same field: duality and polarisation give the controls; with C98 the Hamiltonian is multiplied by k along moments multiplied by k, so the Hamiltonian vector fields match and induction over the steps follows; registrations by the equality of the deformed objects and of the costs at the end; Translations refuted |
| C117 | fits of a registration whose coefficients, lam and moments are multiplied by k (`SpecCoeffFit.v`) | C116 for the costs at the refilled moments; uniqueness of gradients (C104) for gradients and line searches; the parabola of one translation in closed form for the refutation with equal steps |
| C118 | shooting and evaluating with zero moments | doubling zero moments changes nothing, while C98 multiplies the Hamiltonian field by 2 or 4: the field is zero; induction over the steps of each scheme |

Every property can be expressed in a model; none is marked not applicable.

## 3. Trusted base

* Coq 8.16.1 kernel (and `coqchk`), standard library, Coquelicot and Flocq as
  libraries without axioms of their own.
* Axioms: only those of Coq's standard library, see section 5.
* The reading of the Python source: each definition cites file and lines, and says
  what it simplifies.
* The stated contracts of torch/scipy primitives: hypotheses of the theorems
  (`exact_solver`, `exact_grad`, `translation_natural`, ...), or documented semantics
  written in the model (tensor operations, `torch.cross` default axis, csv/pickle).

## 4. Findings

Behaviour of the code that contradicts the property (or the documentation), each
proved in the model with a witness or characterised for all inputs.

Manifolds
* `manifold.dtype/device` are not updated by `fill_*`, `CompoundManifold.to_` leaves its
  dtype stale (C04); `gd_requires_grad_(index=i)` raises TypeError after construction
  and after every fill (C05); a fill that raises leaves the device changed, compounds
  partially filled (C06); `len_gd/numel_gd/shape_gd` disagree with the unrolled lists
  for point-less manifolds and after fills of other shapes (C07).
* CompoundLandmarks: `inner_prod_field` is always 0, `infinitesimal_action` raises
  AttributeError (C16).

Kernels and fields
* `gauss_kernel(x, k, sigma)` raises for k = 3 but silently returns None for k >= 4 (C09).
* The field of `cot_to_vs` with LandmarksDirection has no Jacobian (C15, C19).

Modules
* `Hamiltonian(module)` raises AssertionError for a single module (C20).
* Order-1 implicit modules use a stale solve after their descriptors change, and raise
  when freshly built (C23). LocalScaling(dim=3) fails with a shape mismatch.
* Nested loops over a compound visit only some pairs; an interrupted inner loop makes
  the outer one endless (C24).

Shooting
* torch_euler ignores `t1` and records no `costs['deformation']` (C25, C32).
* With float32 times, 3 euler steps record only 2 costs (C27).
* The last stage of rk4 uses the controls of the next step; numbers of control sets
  strictly between `it` and `it`*evaluations raise (C28).
* Nested compounds with descriptors cannot be packed (C26).

Models
* Objects transported backward cannot be deformed: `shoot` is called without its
  argument `costs` (C31); the same in the atlas `compute_template` (C34).
* `torch_euler` raises KeyError with the default reduction (C32).
* Descriptors selected by a list of booleans never record gradients (C30);
  `to_device` leaves learnable controls behind (C30).
* Atlas: the descriptors given to the optimizer are those of the first subject only
  (C33); a wrong number of targets is accepted (C34).

Optimizers
* A NaN cost at the current parameters makes the line search loop for ever (C36).
* OptimizerTorch reports success when the cost rises; max_iter=0 raises
  UnboundLocalError (C37). The `naninf` option raises AttributeError (C38).
  `Fitter.fit` raises TypeError with every scipy optimizer, default included (C39), and
  deletes its settings from the caller's dictionary (C40). `set_default_optimizer` has
  no effect (C41). `tensors_device/dtype` raise on nested lists (C61).

Attachments and meshes
* Mesh centres are 3/2 of the barycentres (effective scale 2/3 sigma) (C51, C42); meshes of
  exactly three faces have their normals computed along the wrong axis (C43, C51);
  degenerate faces give NaN (C42); KeOps varifolds of curves raise NotImplementedError
  (C11); CompoundAttachment ignores the weights of its members (C44); the 'smooth' L2
  attachment does not separate images, 'radon' raises TypeError (C65).
* `resample_curve` returns the opposite of the first vertex; two-vertex curves raise (C66).
* `area_convex_shape(intersect=False)` marks nothing when a vertex is repeated (C49).

Utilities
* `AABB(*b.tocouple())` is misread; NaN bounds accepted; `todict` forgets axes after the
  third (C45); one-point axes miss corners; `fill_area_random` may never return (C46);
  negative scales give invalid boxes, `squared` divides by zero on a flat side (C47).
* `rot2d_vec`, `rot3d_y_vec` rotate by the opposite angle (C53); `extent_transformation4d`
  translates before scaling (C54); images are extrapolated before the first row/column
  (C56); rectangular images are not reproduced by the identity, one-row images raise
  (C57); `sample_from_greyscale` raises IndexError for every image of more than one
  pixel (C58); extra coordinates dropped by grid2vec (C59); disc rings repeat their
  first point (C62).
* Files: the dispatch uses `os.path.split` for `splitext` (C63); csv of a single point or of
  one coordinate cannot be read back; a wrong container name empties the file (C68).
* A user closure anchored in space breaks translation invariance (C70, shows that the
  hypothesis is needed).
* `DeformationModules/DeformationGrid.py` can never be built; the deformed geometry of a
  DeformableGrid is a list of points while its geometry is a tuple of grids; a short
  resolution is accepted (C73). Calling an ObjectFactory raises NameError (C74).
  `import_point_basis` always raises (C75). `points2voxels_affine` applies the same matrix as
  `voxels2points_affine` (C76).
* **One shooting step may merge two distinct points** (C78_unbounded_refuted): with a strong
  control the explicit Euler step is not one-to-one, although the continuous flow would be. The
  positive theorem C78_given_controls states a bound on the controls which excludes it.
* **LocalScaling is not equivariant under rotations** (C79_local_scaling_refuted): turning the
  scene by half a turn does not turn the field, because its three translations sit at fixed
  angles around the descriptor. The positive theorems of C79 cover local modules whose support
  and vectors commute with the motion, and every other module.
- **C83** `evaluate_mode`: any other mode than 'sequential' and 'parallel' is refused, and an
  atlas built with 'parallel' cannot deform (atlas.py:180 calls the function of line 209 with
  one argument too few: TypeError). `optimise_template=True` builds an atlas whose evaluate and
  compute_deformed always raise: atlas.py:151 calls shoot without its argument `costs`.
- **C84** the `precompute_callback` given to an atlas is stored and never called. A registration
  model runs its callback in evaluate and not in compute_deformed, so that compute_deformed
  may return other points than those that evaluate measured.
- **C57** (forward images) deformable_image2d.py:118 takes one step, used at 125-132 for both axes:
  the spacing of the first one. When the pixel grid has another spacing along the second axis,
  the correction along that axis is scaled wrongly, already for a translation.
- **C85** deformable.py:347-353: 'totalcompound' pairs the state at step k with the controls `incontrols[k]`. With the
  midpoint and Runge-Kutta methods, when there is one set of controls per evaluation, step k is
  driven by other sets, and some sets are never paid for.
- **C85** deformable.py:340-347 has no last branch: an unknown value of `reduce` (a typing error) is
  accepted and the registration then has no deformation cost.
- **C87** the angular momentum of isotropic modules, constant along exact geodesics, is changed by each
  `torch_euler` step (shooting.py:54-78) by the squared step times the angular momentum of the velocity; the
  sum of the moments (C72) is kept exactly. This is a property of Euler's scheme, not a mistake in the code, but
  a user who checks a trajectory by its invariants can only use the second.
- **C89 (fft on volumes, signals, and recent torch).** attachment_l2.py:43-44 takes `[:, :, 0]` and `[:, :, 1]` of the transform for its real and imaginary parts. That is right for pictures only. For volumes these are the frequencies 0 and 1 of the last dimension: volumes of depth 4 that differ by an alternating pattern of any amplitude are at distance 0 (`C89_fft_volumes_refuted`). For signals it raises IndexError. With torch 2.5.1 (requirements.txt) `torch.fft` is a module, so the transform raises TypeError on every image (`C89_fft_refused`).
- C95 (`C95_default_fill_refuted`): `fill`, `fill_gd`, `fill_tan`, `fill_cotan` have `copy=False` by default (Abstract.py:96-121, Compound.py:95-111) and the constructor has no other way (Abstract.py:232-241): the manifold then holds the caller's storages, and an in-place update of one is seen in the other; `requires_grad` is silently ignored in that case.
- C96 (`C96_exactly_back_refuted`): the backward shooting of images (deformable.py:315-316) retraces the forward one up to C / it only; with one Euler step the example goes from (1, 0) to (2, 0) and stays there on the way back.
- C30 (`C30_filled_moments_record_refuted`): `model.init_manifold = m` (registration_model.py:120-124) does not call `cotan_requires_grad_`, which the constructor does: if the moments of m do not record gradients the model still lists them in `parameters`, where optimizers cannot move them.
* With torch_euler the end time cannot stand for larger moments: `t1` is not passed to `_shoot_euler`
  (shooting.py:42-44), so a run asked up to the time 2 stops at 1 (C98_torch_euler_end_refuted); the fixed-step
  schemes of torchdiffeq do satisfy the relation exactly.
* `OptimizerTorch` reports as final the cost of the last *evaluation*: with torch.optim.SGD that is before the last
  update (optimizer_torch.py:69-78, C99_sgd_refuted). `OptimizerScipy` never writes `scipy_res.x` into the model
  (optimizer_scipy.py:45-47): it stays at the last vector scipy tried (C99_scipy_refuted).
* The torch optimizer is created once (optimizer_torch.py:38): options and parameters of later fits are ignored until
  `reset()` (C100_options_refuted).
* `Fitter(..., post_iteration_callback=f)` never calls `f` (fitter.py:22); with `disp=True`, the default, fitting an
  atlas raises AttributeError after the first step because only registration models have `deformation_modules`
  (fitter.py:77, C101_display_refuted); `minimum_found` is never set (optimizer_gd.py:64, a local variable) and
  `total_evaluation_count` counts steps (C101_gd_attributes_refuted).
* CompoundLandmarks(dim, (n0, n1)) announces shapes (n0, dim) for both of its tensors (CompoundLandmarks.py:16), so
  the state of a shooting is cut at wrong places when n1 differs from n0 (C26_two_point_sets_refuted).
* Coefficients have units: with data, moments and scales multiplied by u the same motion is obtained only if the coefficient of a
  linear module is multiplied by u*u and nu of ImplicitModule1 divided by u*u (C103_same_coefficient_refuted).
* The test of convergence of OptimizerTorch is relative above cost 1 and absolute below: the same run with costs in another unit stops
  elsewhere and may report success where the other does not (C104_tolerance_refuted). Step lengths have a unit (C104_same_steps_refuted).
* lam has a unit, which depends on the attachment (a length for points in correspondence, none for curves, an inverse squared length for
  meshes), and CompoundAttachment adds losses of different units (C105_same_lam_refuted, C105_mixed_refuted).
* point_side is documented to be -1 on the left of the line and +1 on the right (meshutils.py:429) and returns the opposite
  (C106_documented_side_refuted); area_side follows its documentation.
* LocalScaling is documented to use three vectors "pointing inwards" (LocalConstrainedTranslations.py:149); they point outwards, so that
  a positive control dilates (C109_inwards_refuted, C109_vectors, C109_scaling).
* With directions or frames, the path of a gradient-descent fit depends on the unit of length: their moments are multiplied by u * u and
  their gradients by 1, those of points by u and by u, and one step length serves all the moments (C110_gradients; C110_gd_steps for points).
* The stopping test of OptimizerTorch, (last - total)/max(total, last, 1) <= tol, is relative above 1 and absolute below: the same registration with
  the same options and the weight converted is reported converged in one unit of length and not in the other (C110_stopping_refuted).
* C113: `OptimizerGradientDescent.step` accepts or rejects a step for all tensors at once. Fitting an atlas with 'gd' is therefore not fitting its subjects: a stiff subject shortens the steps of all the others (`C113_gd_refuted`), whereas a fixed step fits each subject as if it were alone (`C113_atlas_fit`).
* C116: `Translations` takes no coefficient: its part of the cost cannot be weighed against that of the other modules (every other module that moves points has `coeff`). Multiplying all coefficients and the moments by k keeps the motion of every other module and changes that of `Translations` (`C116_translations_refuted`).
* C117: multiplying all coefficients and lam by k is no change of problem, but gradient descent with the same options is another descent: the gradients are unchanged while the moments are k times as large, so the step must be multiplied by k (`C117_same_steps_refuted`).

## 5. Axioms of each theorem

All are axioms of Coq's standard library: `ClassicalDedekindReals.sig_forall_dec` and
`ClassicalDedekindReals.sig_not_dec` (construction of R),
`FunctionalExtensionality.functional_extensionality_dep`, `Classical_Prop.classic`.
`ClassicalEpsilon.constructive_indefinite_description` is used by Examples and by five
refutations, to build a solver and an autograd meeting the hypotheses. The lists below are
the output of `Print Assumptions` for every theorem of the manifest.

* **Closed under the global context** (68 theorems): C01_consumption, C01_unroll_length, C01_uniform_lists, C02_stacked, C07_sizes, C07_total_size, C07_points, C09_order3_refused, C20_single_module_refused, C24_loop_visits_all, C24_nested_loops_refuted, C24_interrupted_inner_loop_refuted, C26_manifolds_shaped, C26_two_point_sets_refuted, C27_recorded_evaluation, C28_own_control, C28_one_set_per_step, C28_rk4_last_stage_refuted, C38_pack_unpack, C38_unpack_pack, C38_wrong_length, C38_not_contiguous, C39_fitter_refuted, C39_fitter, C40_options_refuted, C40_options_effect, C40_options_kept, C40_settings, C40_default_options, C41_valid_backends, C41_backend, C41_backend_unknown, C41_default_refuted, C41_default_never_changes, C41_unknown_rejected, C41_registered, C47_copies, C47_in_place, C60_history, C60_fit_costs, C61_device, C61_dtype, C61_nested_refuted, C61_flattened, C63_file_name, C64_backend, C67_mask_indices, C69_append, C69_keys, C74_spawn, C74_unknown_keys, C74_call_refuted, C75_growth_round_trip, C75_growth_errors, C75_basis_refuted, C93_to_device, C93_to_dtype, C93_to_refused, C93_zeros_compound, C93_randn, C93_requires_grad, C93_requires_grad_others, C100_options_of_the_first_call, C101_iterations, C101_user_callback_refuted, C101_display_harmless, C40_scipy_maxiter, C60_fit_costs_none
* **sig_forall_dec** (77 theorems): C01_roll_fill_unroll, C01_fill_roll_unroll_identity, C02_fill_sets_part, C02_frame, C03_shapes, C03_sums, C03_devices_refused, C04_truthful_refuted, C04_truthful_on_matching_histories, C05_select_one_refuted, C05_select_one_partial, C06_atomic_fill_refuted, C06_atomic_fill_partial, C07_sizes_refuted, C26_pack_unpack, C26_unpack_pack, C28_registration_control_sets, C28_registration_other_solvers, C30_filled_initial_manifold, C30_filled_moments_record_refuted, C30_updates_are_seen, C33_parameters, C35_first_steps, C38_naninf_refuted, C38_costs, C44_varifold_factory, C46_area_random_never_returns, C59_grids_to_points_and_back, C59_points_to_grids_and_back, C59_errors, C59_extra_coordinates_dropped, C59_other_number_of_grids_refuted, C63_dispatch_refuted, C63_accepted_paths, C63_meshes_refuted, C67_greyscale, C67_other_images, C68_pickle, C68_csv, C68_single_csv_refuted, C68_no_points_refuted, C68_wrong_container_refuted, C68_mesh, C68_points_as_mesh, C68_load_errors, C73_grid_follows_its_points, C73_deformed_geometry_refuted, C75_basis_exported, C76_refused, C83_settings, C83_hypertemplate_parameter, C83_attachments, C91_built, C91_nothing_given, C91_refused, C91_compound, C92_clone, C92_container, C92_fill, C93_zeros, C94_calls, C94_fill, C94_fill_from, C94_clone, C95_independent, C95_clone, C95_copied, C95_shared, C95_default_fill_refuted, C95_built, C95_kept, C95_renewed, C95_getter, C95_filled_from, C99_scipy, C99_scipy_errors, C115_initial_moments
* **sig_forall_dec, functional_extensionality_dep** (148 theorems): C03_add_add, C03_negate_involution, C03_negate_add, C03_add_zeros, C16_inner_is_cotan_dot_action, C16_inner_linear, C16_inner_compound, C16_directions, C16_normals_follow_tangents, C16_compound_landmarks_refuted, C17_frame_velocity_skew, C17_gram_derivative_zero, C25_euler_step_entries, C29_solvers_evaluate, C35_step, C35_monotone, C36_terminates, C36_nan_diverges, C37_success_refuted, C37_result, C37_success, C45_constructed_box_valid, C45_bounds_in_order_or_value_error, C45_named_bounds, C45_named_bounds_out_of_order, C45_wrong_arguments, C45_representations, C45_dict_keeps_three_axes, C45_couples_are_misread, C45_couples_refuted, C45_nan_bounds_refuted, C45_fl_bounds, C45_box_of_points, C45_box_of_no_points, C45_indexing, C45_names, C45_dictionary_names, C46_is_inside, C46_is_inside_without_axes, C46_random_points_in_box, C46_random_density, C46_count_grid, C46_count_corners, C46_count_number, C46_count_errors, C46_corners_refuted, C46_spacing_grid, C46_spacing_errors, C46_area_uniform, C46_area_random, C46_area_random_order, C46_area_random_returns, C46_area, C46_extent, C46_extent_monotone, C46_area_random_density, C46_area_box, C47_scale, C47_scale_wrong_number_of_factors, C47_scale_valid, C47_scale_negative, C47_scale_valid_refuted, C47_squared, C47_squared_other_cases, C47_squared_refuted, C47_scale_extent, C48_side, C48_start_vertex, C48_backward, C48_concatenation, C48_zero_outside, C48_area_shape_same, C48_errors, C49_marks, C49_convex, C49_contains, C49_agrees_with_area_shape, C49_repeated_vertex, C49_errors, C49_hull, C52_convex_combination, C52_box, C54_translation_scale, C54_extent, C54_extent_refuted, C55_round_trips, C55_corners, C55_indices, C55_errors, C55_round_trips_any_dimension, C56_bilinear, C56_wrong_number_of_points, C56_extrapolation, C56_range_refuted, C56_trilinear, C57_construction, C57_single_row_refuted, C57_geometry, C57_initial_points, C58_sampling_refuted, C58_single_pixel, C58_centred_and_normalised, C62_unit_square, C62_unit_square_negative, C62_rectangle, C62_rectangle_errors, C62_mesh_grid, C73_grid_is_reproduced, C73_unexported_class_refuted, C73_short_resolution_refuted, C76_affine, C76_inverse_matrix, C76_same_matrix_refuted, C99_reported, C99_gd, C99_sgd, C99_sgd_refuted, C99_scipy_refuted, C100_options_refuted, C101_display_refuted, C101_gd_attributes_refuted, C104_gd_fit_multiplied, C104_sgd_fit_multiplied, C104_points, C104_gradients, C104_gd_steps, C104_gd_fit, C104_sgd_fit, C104_gd_fit_where_smooth, C104_sgd_fit_where_smooth, C104_tolerance_refuted, C104_same_steps_refuted, C106_marks, C106_one_point, C106_partition, C106_same_line, C106_no_line, C106_errors, C106_point_side, C106_documented_side_refuted, C106_closed, C106_empty_shape, C113_gradient, C113_sgd, C113_gd_refuted, C115_gradients, C115_gd_fit, C115_sgd_fit
* **sig_forall_dec, sig_not_dec, functional_extensionality_dep** (259 theorems): C08_cross_kernel_transpose, C08_kernel_matrix_psd, C08_kernel_matrix_pd, C08_pairwise_distances, C09_gauss_kernel_derivatives, C09_higher_orders_refused_refuted, C10_order1_is_jacobian, C10_order2_is_hessian, C10_order1_or_not_implemented, C11_varifold_backends, C11_curves_keops_not_offered, C11_fields_backend_independent, C11_module_backend_independent, C11_geodesic_controls_backend_independent, C11_sks_backend_independent, C12_sum_is_pointwise, C12_sum_raises_first_error, C12_linear_in_moments, C12_additive_in_support, C13_eta_orthonormal, C13_round_trips, C13_dimensions, C14_sks_symmetric_psd, C14_sks_computes_strain, C14_order0_is_kernel, C14_other_orders_refused, C15_cot_to_vs_is_dual, C15_jacobian_of_dual_field, C16_inner_formula, C16_inner_null_field, C17_rigid_motion_rotates_frames, C18_cost_is_quadratic, C18_fill_zero_costs_nothing, C18_compound_cost_is_sum, C18_controls_accepted, C18_cost_definite, C19_geodesic_controls_maximise, C19_maximiser_unique, C19_computable_definite, C19_only_maximiser, C19_geodesic_controls_computable, C19_directions_refused, C20_hamiltonian_is_cost, C21_strain_is_prescribed, C22_divfree, C22_arap, C23_fresh_module_raises_refuted, C23_explicit_modules, C23_explicit_never_raise, C23_after_controls, C25_torch_euler_steps, C25_fixed_step_schemes, C26_nested_refused, C26_modules_shootable, C27_once_per_step_moments, C27_once_per_step_controls, C27_any_solver, C27_monotone_schedule, C27_float32_refuted, C28_evaluation_control, C28_never_out_of_range, C28_too_few_sets, C29_evaluations_are_repeatable, C30_parameters_are_the_models_tensors, C30_evaluations_read_the_tensors, C30_initial_values, C30_selected_one_by_one_refuted, C31_backward_refuted, C31_backward_raises, C31_forward_objects, C32_costs_of_the_deformed, C32_solvers_evaluate, C32_fixed_step_costs, C32_torch_euler_refuted, C32_unknown_solver, C33_other_subjects_refuted, C34_cost_is_the_sum, C34_wrong_length_refuted, C34_missing_targets_refuted, C34_errors, C42_curves, C42_curves_errors, C42_meshes_any, C42_meshes, C42_degenerate_faces_refuted, C42_meshes_errors, C43_curves, C43_curves_motion, C43_meshes, C43_meshes_motion, C43_three_faces_refuted, C44_call, C44_compound, C44_compound_value, C44_compound_unit_weights, C44_compound_refuted, C46_area_uniform_density, C50_distance, C50_area_segment, C50_area_segment_direction, C50_outline, C50_outline_defaults, C50_disc, C50_errors, C51_normals_and_areas, C51_area_normal, C51_translations, C51_flip, C51_centres_refuted, C51_three_faces_refuted, C51_invalid_faces, C52_gaussian, C53_rotations, C53_angles_add, C53_vectorised, C53_vectorised_agree_iff, C53_vectorised_refuted, C53_vectorised_rank, C54_short_lists, C54_rigid, C54_extent_errors, C57_backward_identity, C57_square_images, C57_square_images_as_points, C57_rectangles_refuted, C57_forward_identity, C57_forward_affine, C57_forward_spacing_refuted, C57_forward_default_refuted, C62_unit_circle, C62_disc, C62_sparse_disc_refuted, C62_disc_errors, C65_pointwise, C65_pointwise_triangle, C65_images, C65_transforms, C65_smooth_refuted, C66_two_vertices, C66_first_point, C66_points_on_curve_refuted, C70_fields, C70_action, C70_given_controls, C70_geodesic_controls, C70_local_modules, C71_shooting_commutes_with_translations, C72_torch_euler, C72_fixed_step_schemes, C77_torch_euler, C77_fixed_step_schemes, C77_points, C79_given_controls, C79_geodesic_controls, C79_computable, C80_torch_euler, C80_fixed_step_schemes, C80_same_scene, C81_local_modules, C83_deformed_templates, C83_costs_of_the_deformed_templates, C83_calls_are_repeatable, C83_modes_refuted, C83_hypertemplate_refuted, C84_without_callback, C84_callback_cost, C84_callback_errors, C84_repeatable, C84_atlas_costs, C84_own_callback_refuted, C85_choices, C85_previous_is_energy, C85_attachments_same, C85_unknown_refuted, C85_total_needs_controls, C85_total, C85_total_is_sum, C85_total_refuted, C88_given_controls, C88_geodesic_controls, C89_plain, C89_fft, C89_fft_refused, C89_fft_volumes_refuted, C89_enlarged, C89_sizes, C89_resizing_refused, C96_controls, C96_motion, C97_superposition, C97_cost_bounds_speed, C97_zero_controls_move_nothing, C97_controls_linear_in_moments, C98_controls, C98_motion, C98_fixed_step, C102_attachments, C102_attachments_in_models, C103_given_controls, C103_geodesic_controls, C103_computable, C103_local_modules, C103_motion, C103_torch_euler, C103_fixed_step, C105_attachments, C105_attachments_in_models, C105_fixed_step, C105_torch_euler, C105_mixed_refuted, C107_turned_moments, C107_initial_moments, C108_given_controls, C108_geodesic_controls, C108_same_velocities, C109_scaling, C109_rotation, C109_third_turn, C109_vectors, C109_inwards_refuted, C109_rotation_space, C109_alone, C110_initial_moments, C110_costs, C110_gd_steps, C110_gradients, C110_gd_fit, C111_units, C111_built_units, C112_any_order, C112_one_subject, C113_atlas_costs, C113_atlas_fit, C114_attachments, C116_controls, C116_given_controls, C116_motion, C116_fixed_step, C116_torch_euler, C116_same_controls, C116_registration, C116_registration_torch_euler, C116_atlas, C117_initial_moments, C117_costs, C117_gradients, C117_gd_steps, C117_gd_fit, C117_sgd_fit, C85_previous_evaluates, C118_fixed_step, C118_torch_euler, C118_controls, C118_registration, C118_on_target, C118_points_on_themselves, C118_registration_torch_euler, C118_motion, C118_atlas_on_target
* **sig_forall_dec, sig_not_dec, classic, functional_extensionality_dep** (57 theorems): C08_kernel_matrix_basic, C08_kernel_system_unique_solution, C17_frames_stay_orthonormal, C23_depends_on_fill_order_refuted, C46_uniform_density, C48_winding_number, C48_angles_exist, C48_area_shape, C62_disc_repeats_refuted, C70_anchored_closures_refuted, C72_exact_motion, C72_modules_torch_euler, C72_modules_fixed_step, C78_distances, C78_given_controls, C79_local_scaling_refuted, C80_modules_torch_euler, C80_modules_fixed_step, C81_geodesic, C81_given, C81_steps, C81_along_curves, C82_step, C82_torch_euler, C82_fixed_step_schemes, C84_deformed_refuted, C86_geodesic_energy, C86_given_energy, C86_torch_euler_step, C87_exact_motion, C87_torch_euler, C88_torch_euler, C88_fixed_step_schemes, C90_torch_euler, C90_fixed_step_schemes, C96_there_and_back_torch_euler, C96_there_and_back_fixed_step, C96_way_back_torch_euler, C96_way_back_fixed_step, C98_can_be_shot, C102_fixed_step, C102_torch_euler, C107_same_costs, C107_evaluates, C107_gd_fit, C107_sgd_fit, C108_torch_euler, C108_fixed_step_schemes, C111_elsewhere, C111_built_elsewhere, C114_any_order, C114_built, C115_same_costs, C115_registration_gd, C115_registration_sgd, C116_can_be_shot, C85_torch_euler_previous
* **sig_forall_dec, sig_not_dec, ClassicalEpsilon.constructive_indefinite_description, classic, functional_extensionality_dep** (9 theorems): C78_unbounded_refuted, C87_shooting_keeps_angular_momentum_refuted, C96_exactly_back_refuted, C98_torch_euler_end_refuted, C103_same_coefficient_refuted, C105_same_lam_refuted, C110_stopping_refuted, C116_translations_refuted, C117_same_steps_refuted

## 6. What is modelled and what is not

| repository file | model | not modelled |
|---|---|---|
| Kernels/kernels.py, SKS.py | KernelModel | dtype/device of results |
| StructuredFields/* | FieldModel | KeOps compilation, back-end strings |
| Manifolds/tensor_container.py, Abstract.py, Compound.py, Empty.py | ManifoldModel (structure, fills, devices), GeometryModel (action, inner product), ShootingModel (lists of tensors), HeapModel (the same methods on references into shared storages) | autograd graphs |
| Manifolds/Landmark, LandmarkDirection, NormalFrame, CompoundLandmarks | GeometryModel | `__str__` |
| DeformationModules/* | ModuleModel | `__str__` |
| HamiltonianDynamic/* | ShootingModel | torchdiffeq adaptive solvers (kept abstract: any schedule of evaluations, C27) |
| Models/registration_model.py, atlas.py | RegistrationModel, AtlasModel | printing |
| Models/deformable.py | RegistrationModel, FileModel | mesh file formats (meshio is an oracle) |
| Models/deformable_image2d.py | ImageModel, RegistrationModel | matplotlib/PIL reading (oracle) |
| Models/optimizer*.py, fitter.py | OptimModel | internals of scipy and torch optimizers (oracles) |
| Attachment/* | AttachmentModel, FourierModel | modes of interpolation other than nearest (oracle) |
| Utilities/aabb.py | AabbModel, AabbRead | random generator (oracle: list of numbers in [0,1)) |
| Utilities/meshutils.py | MeshModel, AabbModel, AabbRead | ConvexHull of 3D points (oracle) |
| Utilities/meshgen.py | MeshgenModel | `gmsh`/`meshio` calls |
| Utilities/sampling.py, usefulfunctions.py | ImageModel, UtilModel | `make_grad_graph` (graphviz), mesh exports |
| Utilities/compute_backend.py | OptimModel | |
| Utilities/plotting.py | none | matplotlib only |
| Utilities/factory.py, DeformationGrid.py, DeformableGrid | MiscModel | |

Everywhere: rounding (except C27), devices other than as labels, memory and time,
exceptions raised by torch for tensors of incompatible shapes unless a theorem names them.
