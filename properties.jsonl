{"id": "C01", "title": "Rolling undoes unrolling on every manifold", "statement": "For every manifold, including compounds nested to any depth and compounds containing manifolds without points, unroll_gd()/unroll_cotan() produce a flat list of len_gd tensors; roll_gd()/roll_cotan() applied to any list consume exactly len_gd tensors from its front, leave the rest untouched, and give a structure which fill_gd()/fill_cotan() turns back into a manifold whose unrolled list is exactly the consumed prefix; in particular fill(roll(unroll())) changes nothing. A list that is too short is reported with IndexError.", "quantifier": "every finite nesting of compounds, every choice of leaf manifold shapes, every content and every trailing list", "why_tests_cant": "Nesting depth, leaf shapes and lists are unbounded; a unit test samples one or two fixed compounds.", "anchors": ["imodal/Manifolds/Compound.py:CompoundManifold.unroll_gd", "imodal/Manifolds/Compound.py:CompoundManifold.roll_gd", "imodal/Manifolds/Compound.py:CompoundManifold.fill_gd", "imodal/Manifolds/tensor_container.py:TensorContainer.roll", "imodal/Manifolds/Empty.py:EmptyManifold"]}
{"id": "C02", "title": "Filling one part of a manifold changes that part and nothing else", "statement": "fill_gd, fill_tan and fill_cotan (and the gd/tan/cotan setters) make the corresponding getter return exactly what was filled and leave the two other parts untouched, through any nesting of compounds.", "quantifier": "every manifold tree and every sequence of fill/add/negate operations", "why_tests_cant": "Frame conditions concern everything that must not change under arbitrary histories.", "anchors": ["imodal/Manifolds/Abstract.py:Manifold.fill_gd", "imodal/Manifolds/Compound.py:CompoundManifold.fill_gd", "imodal/Manifolds/tensor_container.py:TensorContainer.fill"]}
{"id": "C03", "title": "add_* and negate_* are vector-space operations on manifold data", "statement": "add_gd(a) then add_gd(b) equals add_gd(a+b), negate_* is an involution, negate_* distributes over add_*, adding zeros changes nothing, and the shapes of the stored tensors are preserved, for every manifold tree.", "quantifier": "every manifold tree and every tuple of tensors of the manifold's shape", "why_tests_cant": "Algebraic laws over all values and nestings.", "anchors": ["imodal/Manifolds/tensor_container.py:TensorContainer.add", "imodal/Manifolds/tensor_container.py:TensorContainer.negate", "imodal/Manifolds/Compound.py:CompoundManifold.add_gd"]}
{"id": "C04", "title": "manifold.device and manifold.dtype always describe the stored tensors", "statement": "At every moment of a manifold's life the reported device and dtype are those of the tensors it holds.", "quantifier": "every history of fill_*, to_ and clone operations", "why_tests_cant": "The defect only appears after particular histories (fill with tensors of another device/dtype).", "anchors": ["imodal/Manifolds/Abstract.py:BaseManifold.device", "imodal/Manifolds/Abstract.py:Manifold.fill_gd", "imodal/Manifolds/Compound.py:CompoundManifold.to_"]}
{"id": "C05", "title": "Selecting one tensor in gd_requires_grad_(index=i) works whatever happened before", "statement": "For a manifold with several descriptor tensors, gd_requires_grad_(flag, index=i) with 0 <= i < len_gd succeeds and changes only the recording flag of tensor i, whatever operations were applied before.", "quantifier": "every history of manifold operations and every valid index", "why_tests_cant": "Whether the call works depends on the history: only a quantification over histories settles it.", "anchors": ["imodal/Manifolds/tensor_container.py:TensorContainer.requires_grad_", "imodal/Manifolds/Abstract.py:Manifold.gd_requires_grad_"]}
{"id": "C06", "title": "A fill that raises leaves the manifold as it was", "statement": "When fill_gd raises (mixed devices, mixed dtypes, too short a list for a compound) the manifold and its reported device are unchanged.", "quantifier": "every manifold and every erroneous argument", "why_tests_cant": "Partial effects before an exception are invisible to success-path tests.", "anchors": ["imodal/Manifolds/tensor_container.py:TensorContainer.fill", "imodal/Manifolds/Compound.py:CompoundManifold.fill_gd"]}
{"id": "C07", "title": "len_gd, numel_gd, shape_gd agree with the unrolled descriptors", "statement": "numel_gd has exactly len_gd entries and entry i is the number of elements of the i-th unrolled descriptor, so that slicing a flat vector with them recovers every descriptor.", "quantifier": "every manifold tree", "why_tests_cant": "Unbounded trees; the disagreement shows only for point-less manifolds inside compounds.", "anchors": ["imodal/Manifolds/Abstract.py:Manifold.numel_gd", "imodal/Manifolds/Empty.py:EmptyManifold.numel_gd", "imodal/Manifolds/Compound.py:CompoundManifold.numel_gd"]}
{"id": "C08", "title": "The Gaussian kernel matrix is a valid covariance", "statement": "K_xx is symmetric with unit diagonal and entries in (0,1], K_xy(y,x) is the transpose of K_xy(x,y), K_xx is positive semi-definite for every configuration of points and positive definite as soon as the points are pairwise distinct, so that the linear systems solved by the modules have exactly one solution.", "quantifier": "every number of points, every dimension, every position, every sigma > 0", "why_tests_cant": "Positive definiteness is a statement about all vectors and all point sets.", "anchors": ["imodal/Kernels/kernels.py:K_xx", "imodal/Kernels/kernels.py:K_xy", "imodal/DeformationModules/Translation.py:Translations_Torch.compute_geodesic_control"]}
{"id": "C09", "title": "gauss_kernel returns the true derivatives of the Gaussian", "statement": "gauss_kernel(x,1,sigma) is the gradient and gauss_kernel(x,2,sigma) the Hessian of gauss_kernel(x,0,sigma) at every point; other orders are refused.", "quantifier": "every point, every dimension, every sigma <> 0", "why_tests_cant": "Derivative identities hold at all points; finite differences sample with tolerance.", "anchors": ["imodal/Kernels/kernels.py:gauss_kernel"]}
{"id": "C10", "title": "field(points, k=1) is the Jacobian of field(points)", "statement": "For every structured field, the tensor returned for k=1 has entry [n,a,l] equal to the partial derivative along axis l of component a of the field returned for k=0 at point n (and k=2 differentiates k=1 where it is supported); sums of fields inherit this.", "quantifier": "every structured field, every support, moments, evaluation point and dimension", "why_tests_cant": "Must hold at every point for every support size and dimension; index-order slips are hidden by symmetric test data.", "anchors": ["imodal/StructuredFields/StructuredField_0.py", "imodal/StructuredFields/StructuredField_1.py", "imodal/StructuredFields/StructuredField_pm.py", "imodal/StructuredFields/StructuredField_Affine.py", "imodal/StructuredFields/Abstract.py:SumStructuredField"]}
{"id": "C11", "title": "The KeOps and torch back ends compute the same numbers", "statement": "For each field, module and attachment offering both back ends, the KeOps formula and the torch expression have the same mathematical value (fields of order 0 and 1, the SKS matrix, module costs, varifold terms).", "quantifier": "every support, moments, points, sigma > 0", "why_tests_cant": "KeOps needs a compiler/GPU and tests compare a handful of random inputs up to tolerance.", "anchors": ["imodal/StructuredFields/StructuredField_0.py", "imodal/StructuredFields/StructuredField_pm.py", "imodal/Kernels/SKS.py", "imodal/DeformationModules/Translation.py", "imodal/Attachment/attachment_varifold.py"]}
{"id": "C12", "title": "A sum of fields is the pointwise sum and fields are linear in their moments", "statement": "SumStructuredField evaluates to the sum of its members at every point and order, fields with the same support are linear in their moments, and splitting a support into two gives two fields whose sum is the original field.", "quantifier": "every list of fields of equal dimension, every point, order and moments", "why_tests_cant": "Linear laws over all values.", "anchors": ["imodal/StructuredFields/Abstract.py:SumStructuredField", "imodal/StructuredFields/StructuredField_0.py"]}
{"id": "C13", "title": "eta is an orthonormal basis of symmetric matrices", "statement": "In dimension 2 and 3 eta(dim) has dim(dim+1)/2 orthonormal symmetric matrices, converting a symmetric matrix to coordinates and back is the identity and converting any matrix keeps exactly its symmetric part; other dimensions are refused.", "quantifier": "every matrix of size 2 or 3 and every coordinate vector", "why_tests_cant": "Statement over all matrices.", "anchors": ["imodal/Kernels/SKS.py:eta"]}
{"id": "C14", "title": "compute_sks is the Gram matrix of the strain constraints", "statement": "The matrix returned by compute_sks (order 1) is symmetric and positive semi-definite, and applied to coefficients lambda it returns the symmetric strain (in eta coordinates) at the constraint points of the field generated by StructuredField_p with moments sum_t lambda_t eta_t; order 0 gives the plain kernel matrix Kronecker identity; other orders are refused.", "quantifier": "every number of points, positions, coefficients, sigma, dimension 2 or 3", "why_tests_cant": "An index slip in the einsum breaks it only for non-generic data; positivity is about all vectors.", "anchors": ["imodal/Kernels/SKS.py:compute_sks", "imodal/StructuredFields/StructuredField_pm.py"]}
{"id": "C15", "title": "cot_to_vs represents inner_prod_field", "statement": "For every manifold (landmarks, landmarks with directions in both transports, normal frames, empty, and compounds of them) and every kernel field v generated by points y and vectors m with scale sigma, inner_prod_field(v) equals the sum over y_j of m_j . cot_to_vs(sigma)(y_j).", "quantifier": "every manifold tree, positions, cotangents, y, m and sigma > 0", "why_tests_cant": "Duality is an identity over all fields and covectors.", "anchors": ["imodal/Manifolds/Landmark.py:Landmarks.cot_to_vs", "imodal/Manifolds/LandmarkDirection.py:LandmarksDirection.cot_to_vs", "imodal/Manifolds/NormalFrame.py:NormalFrame.cot_to_vs", "imodal/Manifolds/Compound.py:CompoundManifold.cot_to_vs"]}
{"id": "C16", "title": "inner_prod_field is linear in the field and pairs the cotangent with the infinitesimal action", "statement": "inner_prod_field(v) is the sum over all descriptors of cotangent times infinitesimal_action(v), it is linear in v and zero for the null field, and compounds sum their members.", "quantifier": "every manifold tree, every pair of fields and scalars", "why_tests_cant": "Laws over all fields.", "anchors": ["imodal/Manifolds/Landmark.py:Landmarks.inner_prod_field", "imodal/Manifolds/NormalFrame.py:NormalFrame.infinitesimal_action", "imodal/Manifolds/Compound.py:CompoundManifold.inner_prod_field"]}
{"id": "C17", "title": "Normal frames are moved by infinitesimal rotations", "statement": "The frame velocity returned by NormalFrame.infinitesimal_action is S R with S skew-symmetric, so R^T R has zero derivative: orthonormal frames stay orthonormal to first order whatever the field; rigid-rotation fields rotate the frames with the points.", "quantifier": "every field, every frame and position, every dimension", "why_tests_cant": "Holds for all Jacobians.", "anchors": ["imodal/Manifolds/NormalFrame.py:NormalFrame.infinitesimal_action"]}
{"id": "C18", "title": "Module costs are non-negative quadratic forms", "statement": "For every deformation module with positive weights, cost() is non-negative for all controls and geometrical descriptors, is zero for zero controls and is multiplied by s^2 when the controls are multiplied by s; the cost of a compound is the sum of the costs of its members.", "quantifier": "every module, number of points, position, controls and scales", "why_tests_cant": "Non-negativity over all configurations (kernel positive-definiteness).", "anchors": ["imodal/DeformationModules/Translation.py", "imodal/DeformationModules/ImplicitModule0.py", "imodal/DeformationModules/OrientedTranslation.py", "imodal/DeformationModules/LocalConstrainedTranslations.py", "imodal/DeformationModules/ImplicitModule1.py", "imodal/DeformationModules/Combination.py"]}
{"id": "C19", "title": "Geodesic controls maximise the Hamiltonian", "statement": "After compute_geodesic_control(man), no other choice of controls of the module (or of all members of a compound jointly) gives a larger value of inner_prod_field(field) - cost, and when the cost is definite the maximiser is unique.", "quantifier": "every module type, every manifold the moments live on, every configuration for which the linear solve succeeds", "why_tests_cant": "Optimality is a comparison with all other controls.", "anchors": ["imodal/HamiltonianDynamic/hamiltonian.py:Hamiltonian.geodesic_controls", "imodal/DeformationModules/Translation.py", "imodal/DeformationModules/ImplicitModule0.py", "imodal/DeformationModules/ImplicitModule1.py"]}
{"id": "C20", "title": "Along geodesic controls the Hamiltonian equals the cost", "statement": "After geodesic_controls(), the value of the Hamiltonian is exactly the deformation cost of the module (kinetic energy), for single and compound modules.", "quantifier": "every module and configuration for which the linear solve succeeds", "why_tests_cant": "Identity over all configurations.", "anchors": ["imodal/HamiltonianDynamic/hamiltonian.py:Hamiltonian.__call__", "imodal/HamiltonianDynamic/hamiltonian.py:Hamiltonian.geodesic_controls"]}
{"id": "C21", "title": "The implicit module of order 1 produces the prescribed strain", "statement": "With nu = 0 the field generated by ImplicitModule1 has at every constraint point a symmetric infinitesimal strain equal to R diag(C h) R^T, where R are the frames, C the growth constants and h the controls.", "quantifier": "every number of points, frames, growth constants, controls, dimension 2 or 3, whenever the linear solve succeeds", "why_tests_cant": "Exactness at all points for all controls.", "anchors": ["imodal/DeformationModules/ImplicitModule1.py"]}
{"id": "C22", "title": "Constrained implicit modules satisfy their constraints", "statement": "With nu = 0 the fields of ImplicitDivFree and ImplicitARAP take the prescribed values at the value points and have zero divergence, respectively zero symmetric strain, at the constraint points.", "quantifier": "every configuration for which the linear solve succeeds", "why_tests_cant": "Exactness at all points for all controls.", "anchors": ["imodal/DeformationModules/ImplicitDivFree.py", "imodal/DeformationModules/ImplicitARAP.py"]}
{"id": "C23", "title": "A module's field and cost always reflect its current descriptors and controls", "statement": "field_generator() and cost() depend only on the current gd and the current controls, not on the order in which they were filled, and never raise on a freshly built module.", "quantifier": "every history of fill_gd / fill_controls / cost / field calls", "why_tests_cant": "The implicit modules cache quantities; only histories reveal stale caches.", "anchors": ["imodal/DeformationModules/ImplicitModule1.py", "imodal/DeformationModules/ImplicitARAP.py", "imodal/DeformationModules/ImplicitDivFree.py"]}
{"id": "C24", "title": "A compound module can be iterated like a list", "statement": "Each for-loop over a compound module visits all its members in order, even when loops over the same compound are nested or interrupted.", "quantifier": "every compound and every interleaving of iterations", "why_tests_cant": "Interleavings of iterations are unbounded.", "anchors": ["imodal/DeformationModules/Combination.py:CompoundModule.__iter__", "imodal/DeformationModules/Combination.py:CompoundModule.__next__"]}
{"id": "C25", "title": "The torch_euler shoot performs explicit Euler steps of Hamilton's equations", "statement": "Every step of the torch_euler solver replaces (q,p) by (q + dt dH/dp, p - dt dH/dq), with dt = 1/it and both gradients taken at the old state, for every compound of modules; the intermediates contain it+1 states and it controls.", "quantifier": "every compound, number of steps and initial state", "why_tests_cant": "The re-ordering of the flat gradient list goes through unroll/roll of arbitrary trees.", "anchors": ["imodal/HamiltonianDynamic/shooting.py:_shoot_euler"]}
{"id": "C26", "title": "Packing the shooting state into one tensor loses nothing", "statement": "Flattening descriptors and moments of all modules into the solver state and slicing it back gives every module its own descriptors and moments back, in the forward pass, for the initial state and for every intermediate state; compounds nested in a compound are refused.", "quantifier": "every list of modules with arbitrary (possibly empty) manifolds", "why_tests_cant": "Offsets accumulate over unbounded lists of modules.", "anchors": ["imodal/HamiltonianDynamic/shooting.py:_shoot_torchdiffeq"]}
{"id": "C27", "title": "The deformation cost is accumulated exactly once per time step", "statement": "Shooting with euler, midpoint or rk4 and `it` steps records exactly `it` deformation costs, one per step, whatever the number of intermediate evaluations of the right-hand side.", "quantifier": "every number of steps, every final time, every evaluation schedule of the solver", "why_tests_cant": "Depends on the schedule of evaluation times, and on rounding for some step counts.", "anchors": ["imodal/HamiltonianDynamic/shooting.py:TorchDiffEqHamiltonianGrad.t_to_it", "imodal/HamiltonianDynamic/shooting.py:TorchDiffEqHamiltonianGrad.forward_moments"]}
{"id": "C28", "title": "Each learnable control drives its own evaluation", "statement": "A registration model with fit_controls creates exactly as many control sets as the chosen solver evaluates the dynamics (1, 2 or 4 per step) and evaluation number n uses control set n; with exactly one set per step, set i is used throughout step i; no index is ever out of range.", "quantifier": "every number of steps, every solver, every list of controls", "why_tests_cant": "Index arithmetic for all step counts and schedules.", "anchors": ["imodal/HamiltonianDynamic/shooting.py:forward_control", "imodal/Models/registration_model.py:RegistrationModel.__init__"]}
{"id": "C29", "title": "Evaluating a registration model is repeatable", "statement": "compute_deformed and evaluate depend only on the initial manifold, controls and parameters of the model: calling them again, after any other evaluations, gives the same result, and they never modify the initial manifold.", "quantifier": "every history of evaluations", "why_tests_cant": "Hidden state in modules could leak between evaluations.", "anchors": ["imodal/Models/registration_model.py:RegistrationModel.compute_deformed", "imodal/Models/deformable.py:deformables_compute_deformed"]}
{"id": "C30", "title": "Optimised parameters are the model's own tensors and all record gradients", "statement": "Every tensor handed to the optimizer is the very tensor stored in the model's initial manifold or controls (an update is seen by the next evaluation), and it records gradients.", "quantifier": "every combination of fit_controls, fit_gd (booleans or one boolean per tensor) and other_parameters, and every history of updates, evaluations and moves to another device", "why_tests_cant": "Aliasing properties cannot be observed from values of one run.", "anchors": ["imodal/Models/registration_model.py:RegistrationModel._compute_parameters"]}
{"id": "C31", "title": "Deformables that need backward integration can be deformed", "statement": "compute_deformed works for every deformable, including images which are transported backward by default.", "quantifier": "every list of deformables and modules", "why_tests_cant": "States that the path exists for all models; no test in the repository runs it.", "anchors": ["imodal/Models/deformable.py:deformables_compute_deformed", "imodal/HamiltonianDynamic/shooting.py:shoot", "imodal/Models/deformable_image2d.py"]}
{"id": "C32", "title": "Every documented solver can evaluate a registration model", "statement": "RegistrationModel.evaluate succeeds with every solver accepted by shoot(), including torch_euler, and the reported deformation cost is the same reduction for all of them.", "quantifier": "every solver and number of steps", "why_tests_cant": "Cross-module contract about dictionary keys over all solvers and reduction modes.", "anchors": ["imodal/HamiltonianDynamic/shooting.py:_shoot_euler", "imodal/Models/deformable.py:deformables_compute_deformed"]}
{"id": "C33", "title": "An atlas shares one template descriptor among its subjects", "statement": "When fit_gd is set, the geometrical descriptors optimised by an AtlasModel are used by the registration of every subject.", "quantifier": "every population size >= 1", "why_tests_cant": "Aliasing between deep-copied models, for any population.", "anchors": ["imodal/Models/atlas.py:AtlasModel._compute_parameters", "imodal/Models/atlas.py:AtlasModel.__init__"]}
{"id": "C34", "title": "The atlas cost is the sum over all subjects", "statement": "AtlasModel.evaluate returns, for every cost name, the sum of the costs of all subjects, all of which are evaluated; a target list of the wrong length is rejected.", "quantifier": "every population size and target list", "why_tests_cant": "Truncation occurs only for mismatched lengths.", "anchors": ["imodal/Models/atlas.py:AtlasModel.evaluate"]}
{"id": "C35", "title": "A gradient-descent step never increases the cost", "statement": "When OptimizerGradientDescent.step returns, the parameters are x - s*gradient with s one of the tried step lengths, the cost at the new parameters is lower than before and finite, or equal to it; step lengths are multiplied by gamma2 exactly after a first-try success and by gamma1 at each rejected try.", "quantifier": "every cost function (including ones returning NaN or infinities), every parameter vector, every group setting", "why_tests_cant": "Line search depends on arbitrary cost values.", "anchors": ["imodal/Models/optimizer_gd.py:GradientDescent.step"]}
{"id": "C36", "title": "The line search terminates", "statement": "step() returns for every differentiable cost function: backtracking finds a decrease after finitely many trials unless the gradient vanishes, in which case it stops at once.", "quantifier": "every differentiable cost and every parameter", "why_tests_cant": "Termination is not testable; NaN costs make the loop infinite.", "anchors": ["imodal/Models/optimizer_gd.py:GradientDescent.step"]}
{"id": "C37", "title": "OptimizerTorch reports success only on convergence", "statement": "optimize() runs at most max_iter steps, reports the true number of iterations, reports success only when the relative decrease is between 0 and tol after at least miniter steps, and always returns a result record for max_iter >= 0.", "quantifier": "every cost sequence, tolerance, max_iter and miniter", "why_tests_cant": "Ranges over all cost histories including increasing and NaN ones.", "anchors": ["imodal/Models/optimizer_torch.py:OptimizerTorch.optimize"]}
{"id": "C38", "title": "Packing parameters for scipy is lossless", "statement": "Writing the parameters to a numpy vector and back gives identical parameters of identical shapes, for every collection of parameter groups; a vector of the wrong length is rejected; non-finite costs are turned into infinity when naninf is set.", "quantifier": "every list of groups of tensors of arbitrary shape", "why_tests_cant": "Offsets over unbounded lists.", "anchors": ["imodal/Models/optimizer_scipy.py:OptimizerScipy"]}
{"id": "C39", "title": "Fitter.fit works with every registered optimizer", "statement": "Fitter(model).fit(target, max_iter) runs with the default optimizer and with every optimizer listed by list_optimizers().", "quantifier": "every registered optimizer and every keyword accepted by fit", "why_tests_cant": "A calling-convention contract across all registered implementations.", "anchors": ["imodal/Models/fitter.py:Fitter.fit", "imodal/Models/optimizer_scipy.py:OptimizerScipy.optimize", "imodal/Models/optimizer.py"]}
{"id": "C40", "title": "fit does not modify the caller's options", "statement": "After fit(..., options=o) the dictionary o is unchanged, so that calling fit twice with the same dictionary runs twice with the same settings, and calls relying on the default options do not influence each other.", "quantifier": "every sequence of fit calls", "why_tests_cant": "A history property: the second call behaves differently.", "anchors": ["imodal/Models/fitter.py:Fitter.fit", "imodal/Models/optimizer_scipy.py:OptimizerScipy.optimize"]}
{"id": "C41", "title": "Global registries return what was last set", "statement": "get_default_optimizer() returns the name last given to set_default_optimizer(); get_compute_backend() the backend last given to set_compute_backend(); unknown names are rejected without effect; a registered optimizer can be created by name.", "quantifier": "every sequence of registry calls", "why_tests_cant": "Histories of global state.", "anchors": ["imodal/Models/optimizer.py:set_default_optimizer", "imodal/Utilities/compute_backend.py"]}
{"id": "C42", "title": "Varifold attachments are squared distances", "statement": "The varifold loss (2D curves and 3D meshes, any list of sigmas) is non-negative, symmetric in its two arguments and zero when both are the same shape.", "quantifier": "every pair of shapes with any number of vertices and faces", "why_tests_cant": "Non-negativity over all shapes relies on kernel positivity.", "anchors": ["imodal/Attachment/attachment_varifold.py"]}
{"id": "C43", "title": "Varifold attachments ignore orientation, start vertex and joint rigid motion", "statement": "The varifold loss does not change when the curve is traversed backward or from another vertex, when faces are flipped, reordered or rotated, or when both shapes undergo the same translation or rotation.", "quantifier": "every shape and every such re-parametrisation", "why_tests_cant": "Invariances over all shapes.", "anchors": ["imodal/Attachment/attachment_varifold.py"]}
{"id": "C44", "title": "Attachment weights are honoured", "statement": "Calling an attachment returns weight times its loss, and a CompoundAttachment is its weight times the sum of its weighted members.", "quantifier": "every list of attachments with arbitrary weights", "why_tests_cant": "Weights other than 1 in compounds for arbitrary nesting.", "anchors": ["imodal/Attachment/attachment.py:CompoundAttachment", "imodal/Attachment/attachment.py:Attachment.__call__"]}
{"id": "C45", "title": "An AABB is always a valid box and its representations agree", "statement": "A box built from bounds has min <= max on every axis or the construction raises ValueError; building from totuple(), from (kmin, kmax) or from todict() of a box (up to dimension 3) gives the same box; the box of a set of points is the smallest box containing them.", "quantifier": "every dimension, every list of bounds and points", "why_tests_cant": "All dimensions and values.", "anchors": ["imodal/Utilities/aabb.py:AABB"]}
{"id": "C46", "title": "AABB sampling stays in the box", "statement": "fill_count returns the product of counts points, all in the box and equally spaced, including all corners; fill_random and fill_uniform_spacing return points in the box; is_inside marks exactly the points in the box; filling an area keeps exactly the points of the area.", "quantifier": "every box, counts, spacings and random draws", "why_tests_cant": "All boxes and all random draws.", "anchors": ["imodal/Utilities/aabb.py:AABB.fill_count", "imodal/Utilities/aabb.py:AABB.fill_random", "imodal/Utilities/aabb.py:AABB.fill_uniform_spacing", "imodal/Utilities/aabb.py:AABB.is_inside"]}
{"id": "C47", "title": "scale and squared keep the centre and give valid boxes", "statement": "scale(f) multiplies every side by f and keeps the centre; squared() makes all sides equal to the longest one and keeps the centre; both give a valid box (containing the original for f >= 1); the non-underscored versions leave the original untouched.", "quantifier": "every box and every factor", "why_tests_cant": "All boxes, including flat ones, and all factors, including negative ones.", "anchors": ["imodal/Utilities/aabb.py:AABB.scale_", "imodal/Utilities/aabb.py:AABB.squared_"]}
{"id": "C48", "title": "The winding order of a closed shape is its number of turns around the point", "statement": "For a closed polyline and a point not on its outline, 2*pi times the winding order is the sum of the angles under which the point sees the edges. The order is negated when the side is changed or the shape is traversed backward, does not depend on the starting vertex, adds up over loops with a common vertex and is 0 for points separated from the vertices by a line, in particular outside the bounding box; hence area_shape does not depend on side, start or direction and marks nothing outside the box.", "quantifier": "every closed polyline and point", "why_tests_cant": "All polygons, self-intersecting ones included.", "anchors": ["imodal/Utilities/meshutils.py:winding_order", "imodal/Utilities/meshutils.py:area_shape", "imodal/Utilities/meshutils.py:area_side"]}
{"id": "C49", "title": "area_convex_shape marks exactly the convex polygon", "statement": "area_convex_shape marks a point iff it is on the inner side of all edges (closed or open according to intersect); the marked set is convex, and for a convex polygon contains all convex combinations of its vertices. It agrees with area_shape on convex polygons off the edges' lines.", "quantifier": "every polygon and point", "why_tests_cant": "All polygons and points.", "anchors": ["imodal/Utilities/meshutils.py:area_convex_shape"]}
{"id": "C50", "title": "distance_segment is the distance to the segment", "statement": "distance_segment returns the minimum over the segment of the Euclidean distance, including degenerate segments; area_segment and area_polyline_outline mark exactly the points whose distance to some segment is at most width of the polyline.", "quantifier": "every segment, point and width", "why_tests_cant": "Minimality over a continuum.", "anchors": ["imodal/Utilities/meshutils.py:distance_segment", "imodal/Utilities/meshutils.py:area_segment", "imodal/Utilities/meshutils.py:area_polyline_outline"]}
{"id": "C51", "title": "Triangle centres, normals and areas are correct", "statement": "compute_centers_normals_lengths returns for each face its barycentre, the area-weighted normal and the area; they follow translations, and flipping a face negates the normal.", "quantifier": "every mesh", "why_tests_cant": "All meshes.", "anchors": ["imodal/Utilities/meshutils.py:compute_centers_normals_lengths"]}
{"id": "C52", "title": "kernel_smooth averages", "statement": "Every smoothed point is a convex combination of the input points: smoothing keeps constants, commutes with translations and stays in the bounding box.", "quantifier": "every point set and sigma > 0", "why_tests_cant": "All point sets.", "anchors": ["imodal/Utilities/meshutils.py:kernel_smooth"]}
{"id": "C53", "title": "Rotation helpers are rotations and their vectorised versions agree", "statement": "rot2d, rot3d_x, rot3d_y, rot3d_z return orthogonal matrices of determinant 1 with angles adding up under products; the *_vec versions return, for each angle, the same matrix as the scalar function.", "quantifier": "every angle", "why_tests_cant": "All angles; the mismatch is invisible at 0 and pi.", "anchors": ["imodal/Utilities/usefulfunctions.py:rot2d", "imodal/Utilities/usefulfunctions.py:rot2d_vec", "imodal/Utilities/usefulfunctions.py:rot3d_y_vec"]}
{"id": "C54", "title": "extent_transformation4d maps one extent onto the other", "statement": "The 4x4 matrix returned by extent_transformation4d(e0, e1) maps the corners of e0 to the corners of e1; translation, scale and rigid helpers act on homogeneous points as documented and rigid deformations preserve distances.", "quantifier": "every pair of boxes with non-degenerate sides, every point", "why_tests_cant": "All boxes; the defect is invisible for boxes at the origin.", "anchors": ["imodal/Utilities/usefulfunctions.py:extent_transformation4d", "imodal/Utilities/usefulfunctions.py:rigid_deformation3d"]}
{"id": "C55", "title": "Pixel and point coordinates convert back and forth", "statement": "points2pixels and pixels2points are inverse of each other for every frame shape with at least two rows and columns and every non-degenerate extent; image corners correspond to extent corners.", "quantifier": "every frame shape, extent and point", "why_tests_cant": "All shapes and extents.", "anchors": ["imodal/Utilities/usefulfunctions.py:points2pixels", "imodal/Utilities/usefulfunctions.py:pixels2points"]}
{"id": "C56", "title": "Bilinear sampling interpolates", "statement": "deformed_intensities at integer pixel positions returns the pixel, is affine in each coordinate inside a cell, reproduces constant images everywhere, and never leaves the range of the image intensities.", "quantifier": "every image size, intensities and sample points (also outside the image)", "why_tests_cant": "All images and all real sample positions, including outside.", "anchors": ["imodal/Utilities/sampling.py:deformed_intensities", "imodal/Utilities/sampling.py:deformed_intensities3d"]}
{"id": "C57", "title": "An undeformed image is reproduced exactly", "statement": "If the deformation is the identity, the image computed by DeformableImage from the backward grid is the original bitmap, for every rectangular image and extent.", "quantifier": "every image height, width, content and extent", "why_tests_cant": "All shapes; square images hide the defect.", "anchors": ["imodal/Models/deformable_image2d.py", "imodal/Utilities/aabb.py:AABB.fill_count", "imodal/Utilities/usefulfunctions.py:pixels2points"]}
{"id": "C58", "title": "Sampling points from a grey-scale image never fails", "statement": "sample_from_greyscale returns points for every image and never indexes outside of it.", "quantifier": "every image of at least one pixel", "why_tests_cant": "All sizes.", "anchors": ["imodal/Utilities/sampling.py:sample_from_greyscale"]}
{"id": "C59", "title": "grid2vec and vec2grid are inverse", "statement": "Converting coordinate grids to a point list and back restores the grids, in every dimension and for every grid shape, and vice versa.", "quantifier": "every dimension and grid shape", "why_tests_cant": "All shapes.", "anchors": ["imodal/Utilities/usefulfunctions.py:grid2vec", "imodal/Utilities/usefulfunctions.py:vec2grid"]}
{"id": "C60", "title": "Cost histories keep one entry per evaluation", "statement": "append_in_dict_of_list appends each value at the end of the list of its key and touches nothing else, so after n appends of dictionaries with the same keys each key has its n values in order.", "quantifier": "every sequence of appends", "why_tests_cant": "Histories.", "anchors": ["imodal/Utilities/usefulfunctions.py:append_in_dict_of_list"]}
{"id": "C61", "title": "tensors_device / tensors_dtype report a property only if it is shared", "statement": "The helpers return the common device or dtype when all tensors agree and None otherwise, for nested lists included.", "quantifier": "every nested list of tensors", "why_tests_cant": "All nestings.", "anchors": ["imodal/Utilities/usefulfunctions.py:shared_tensors_property", "imodal/Utilities/usefulfunctions.py:flatten_tensor_list"]}
{"id": "C62", "title": "Generated unit square, rectangle, circle and disc have their points where documented", "statement": "generate_unit_square gives 4n points all on the boundary of the unit square and each of them once; generate_unit_circle gives n points at distance 1 equally spaced; generate_rectangle gives points on the outline.", "quantifier": "every number of points", "why_tests_cant": "All counts.", "anchors": ["imodal/Utilities/meshgen.py"]}
{"id": "C63", "title": "Files are read and written according to their extension", "statement": "DeformablePoints.load_from_file / save_to_file accept any path whose extension is supported and dispatch on the extension.", "quantifier": "every path string", "why_tests_cant": "All path strings.", "anchors": ["imodal/Models/deformable.py:DeformablePoints.load_from_file", "imodal/Models/deformable.py:DeformablePoints.save_to_file"]}
{"id": "C64", "title": "Deformation modules created by name use the requested back end", "statement": "create_deformation_module_with_backends returns the implementation of the requested back end, of the global back end when none is requested, and rejects unknown back ends.", "quantifier": "every history of set_compute_backend and every requested back end", "why_tests_cant": "Global-state histories.", "anchors": ["imodal/DeformationModules/Abstract.py:create_deformation_module_with_backends", "imodal/Utilities/compute_backend.py"]}
{"id": "C65", "title": "Pointwise and image attachments are distances", "statement": "EuclideanPointwiseDistanceAttachment is the sum of the distances between corresponding points and L2NormAttachment the sum of the squared differences of the pixels: both are non-negative, symmetric and zero exactly when the two objects are equal (the first one also obeys the triangle inequality).", "quantifier": "every pair of objects of the same shape, every weight, every transform name", "why_tests_cant": "holds for every size and value; tests look at a few arrays", "anchors": ["imodal/Attachment/attachment.py:EuclideanPointwiseDistanceAttachment", "imodal/Attachment/attachment_l2.py:L2NormAttachment"]}
{"id": "C66", "title": "Resampling a curve returns points of the curve", "statement": "resample_curve(curve, density) returns points lying on the polygonal line through the curve's vertices, in order, evenly spaced.", "quantifier": "every curve with at least two vertices and every positive density", "why_tests_cant": "must hold for every curve; a plot of one curve cannot settle it", "anchors": ["imodal/Utilities/meshutils.py:resample_curve"]}
{"id": "C67", "title": "Masks are converted to the indices of their true entries and grey-scale images are loaded with the requested orientation", "statement": "mask_to_indices lists every true entry of the mask exactly once, in row-major order; load_greyscale_image returns one minus the (first channel of the) image, bottom row first unless origin='upper', and rejects other origins and other numbers of axes.", "quantifier": "every mask and image of every shape, every origin string", "why_tests_cant": "All shapes, all masks and all strings.", "anchors": ["imodal/Utilities/sampling.py:mask_to_indices", "imodal/Utilities/sampling.py:load_greyscale_image"]}
{"id": "C68", "title": "Points saved to a file and loaded again are the same points", "statement": "save_to_csv / save_to_pickle followed by the matching loader returns a deformable with the same points and touches no other file; a refused save leaves the file as it was.", "quantifier": "every set of points, every file name, every container name, every state of the file system", "why_tests_cant": "All sizes, in particular the degenerate ones, and all prior contents.", "anchors": ["imodal/Models/deformable.py:DeformablePoints.save_to_pickle", "imodal/Models/deformable.py:DeformablePoints.load_from_pickle", "imodal/Models/deformable.py:DeformablePoints.save_to_csv", "imodal/Models/deformable.py:DeformablePoints.load_from_csv"]}
{"id": "C69", "title": "Appending a dictionary to a dictionary of lists appends each value to the list of its key", "statement": "append_in_dict_of_list(base, d) appends d[k] at the end of base[k] for each key of d, creating missing lists, and changes nothing else (the order of the keys included).", "quantifier": "every pair of dictionaries", "why_tests_cant": "All dictionaries, by induction on their keys.", "anchors": ["imodal/Utilities/usefulfunctions.py:append_in_dict_of_list"]}
{"id": "C70", "title": "Deformation modules do not depend on the origin of coordinates", "statement": "Moving all the points of a scene by the same vector (landmarks, points of landmarks with directions or frames, centres; directions, frames and moments stay) changes nothing but positions: the field generated by moments, the velocities of descriptors, the controls, the cost, the Hamiltonian and the geodesic controls are the same, and the generated field takes at the moved points the values it took at the points; the same exceptions are raised. This holds for every module class and nested compound, and for LocalConstrainedTranslations when its closures follow translations, as those of LocalScaling and LocalRotation do.", "quantifier": "all modules and nested compounds, dimensions, kernels, vectors, controls, evaluation points and derivative orders, all linear solvers", "why_tests_cant": "tests use a few scenes near the origin; an absolute coordinate leaking into one kernel or one block of a system would only show for some module and some offset", "anchors": ["imodal/DeformationModules/Translation.py", "imodal/DeformationModules/ImplicitModule0.py", "imodal/DeformationModules/ImplicitModule1.py", "imodal/DeformationModules/ImplicitARAP.py", "imodal/DeformationModules/ImplicitDivFree.py", "imodal/DeformationModules/OrientedTranslation.py", "imodal/DeformationModules/LocalConstrainedTranslations.py", "imodal/DeformationModules/Linear.py", "imodal/DeformationModules/Combination.py:CompoundModule", "imodal/HamiltonianDynamic/hamiltonian.py:Hamiltonian"]}
{"id": "C71", "title": "Shooting commutes with translations", "statement": "Shooting (torch_euler) from a translated scene gives the translated result: same exceptions, translated final manifold and intermediate states, same moments, controls, costs and Hamiltonian, whether controls are given or geodesic.", "quantifier": "all compounds, numbers of steps, control lists, translation vectors; every autograd that answers the same for a translated function at the translated point (exact ones do)", "why_tests_cant": "tests shoot a handful of fixed scenes; the property needs the equality of whole trajectories for every offset", "anchors": ["imodal/HamiltonianDynamic/shooting.py:shoot", "imodal/HamiltonianDynamic/shooting.py:_shoot_euler", "imodal/HamiltonianDynamic/hamiltonian.py:Hamiltonian"]}
{"id": "C72", "title": "Shooting conserves the total linear momentum", "statement": "When the modules follow translations, shooting keeps the sum of the moments of all the points (positions of landmarks, of landmarks with directions, of frames), coordinate by coordinate: it is the same in the initial manifold, in every intermediate state and in the final manifold, whatever the solver (torch_euler with geodesic or given controls; euler, midpoint and rk4 with geodesic controls), the number of steps and the final time. Each numerical step conserves it exactly, not only in the limit of small steps.", "quantifier": "every module (any nesting of compounds, any classes) whose user closures follow translations, every control sets, number of steps, solver, autograd computing exact derivatives, Hamiltonian differentiable where it is defined, every coordinate", "why_tests_cant": "a test observes a few scenes up to rounding; the conservation must hold for every compound, every scheme and every number of steps, and a sign or stage error in one scheme may hide below the tolerance", "anchors": ["imodal/HamiltonianDynamic/shooting.py:_shoot_euler", "imodal/HamiltonianDynamic/shooting.py:_shoot_torchdiffeq", "imodal/HamiltonianDynamic/hamiltonian.py:Hamiltonian.__call__", "imodal/HamiltonianDynamic/hamiltonian.py:Hamiltonian.geodesic_controls", "imodal/Manifolds/Abstract.py:BaseManifold.cotan"]}
{"id": "C73", "title": "A deformation grid shows, at each grid position, where its point has gone", "statement": "DeformationGrid(aabb, resolution) holds exactly the points of the mesh grid, togrid() of a new one gives the mesh grid back, and after any change of its descriptors togrid() shows at each grid position the coordinates of the point that started there. The deformed geometry of a DeformableGrid has the same form as its geometry.", "quantifier": "every box and resolution, every dimension, every later value of the descriptors", "why_tests_cant": "tests look at a few resolutions; a wrong flattening order is invisible on symmetric ones", "anchors": ["imodal/DeformationModules/SilentLandmark.py:DeformationGrid", "imodal/DeformationModules/DeformationGrid.py:DeformationGrid", "imodal/Models/deformable.py:DeformableGrid", "imodal/Utilities/usefulfunctions.py:vec2grid"]}
{"id": "C74", "title": "An object factory builds with the builder last registered for the key", "statement": "After any sequence of registrations, spawning a key calls the builder last given for that key with the given arguments and returns its result, and a key never given raises KeyError. Calling the factory is the same as spawning.", "quantifier": "every initial dictionary, every sequence of registrations, every key and arguments", "why_tests_cant": "must hold for every history of registrations", "anchors": ["imodal/Utilities/factory.py:ObjectFactory"]}
{"id": "C75", "title": "Growth and basis fields exported to files are read back", "statement": "Points with a growth tensor written by export_implicit1_growth are returned by import_implicit1_growth; points with a basis written by export_point_basis are returned by import_point_basis.", "quantifier": "every number of points and dimension, every value; files as meshio stores them", "why_tests_cant": "must hold for every number of points and every dimension, the reshapes depend on both", "anchors": ["imodal/Utilities/usefulfunctions.py:export_implicit1_growth", "imodal/Utilities/usefulfunctions.py:import_implicit1_growth", "imodal/Utilities/usefulfunctions.py:export_point_basis", "imodal/Utilities/usefulfunctions.py:import_point_basis"]}
{"id": "C76", "title": "Voxel and point coordinates of an affine frame convert back and forth", "statement": "voxels2points_affine applies the affine map of the matrix and points2voxels_affine undoes it; with toindices the integer part of each voxel coordinate is returned.", "quantifier": "every list of 3D points, every affine matrix", "why_tests_cant": "must hold for every invertible affine matrix", "anchors": ["imodal/Utilities/usefulfunctions.py:voxels2points_affine", "imodal/Utilities/usefulfunctions.py:points2voxels_affine"]}
{"id": "C77", "title": "Shooting moves descriptors along the velocity field that the modules generate", "statement": "During a shoot, driven by moments or by given controls, the descriptors of all modules (points, directions, frames, silent ones included) follow the chosen numerical scheme for the flow of the velocity field generated by the compound: with torch_euler a point x goes to x + dt v(x), where v is the field of the whole module at that step.", "quantifier": "every compound of modules, every moments or controls, every number of steps, the solvers torch_euler, euler, midpoint and rk4, every autograd returning exact derivatives and every exact linear solver", "why_tests_cant": "the velocities are obtained by differentiating the Hamiltonian through the computation of the geodesic controls; that this equals the generated field is an identity over all states", "anchors": ["imodal/HamiltonianDynamic/shooting.py:shoot", "imodal/HamiltonianDynamic/hamiltonian.py:Hamiltonian", "imodal/DeformationModules/Combination.py:CompoundModule"]}
{"id": "C78", "title": "Distances between points during shooting", "statement": "During shooting with the torch_euler method, two points of the shot compound (control points of modules, silent landmarks, of the same member or of different ones) that start at distance D (sum of absolute coordinate differences) are, after n of the it steps, at a distance between (1 - L/it)^n D and (1 + L/it)^n D, where L bounds the strength of the generated fields (sum of the absolute moments over the kernel width, and its analogues for the other kernels). With given controls L is read from the controls, so if there are more steps than L, distinct points never meet. Without this condition they can: a single step with a strong control merges two points at distance 1 (deformations are not always one-to-one).", "quantifier": "every compound of modules (any dimension, any number of points, any kind of module), all geodesic or given controls, every number of steps, every pair of points, every exact autograd and linear solver", "why_tests_cant": "A test shoots a few configurations; the absence of collisions must hold for every configuration and every pair of points, and the bound must be uniform.", "anchors": ["imodal/HamiltonianDynamic/shooting.py:_shoot_euler", "imodal/DeformationModules/Translation.py:TranslationsBase", "imodal/DeformationModules/Combination.py:CompoundModule", "imodal/StructuredFields/StructuredField_0.py:StructuredField_0", "imodal/Kernels/kernels.py:K_xy"]}
{"id": "C79", "title": "Modules are equivariant under rotations, reflections and translations of the scene", "statement": "If every descriptor of a (compound) deformation module is moved by one and the same rigid motion x -> Q x + c (points moved; directions, frames and moments turned; the matrix of a linear module conjugated), then with the correspondingly turned controls the module has the same cost and the same Hamiltonian, and the field it generates takes at every moved point the turned velocity, with the turned derivative. The geodesic controls it computes are the turned ones (scalar controls unchanged) in every regular configuration, where both computations succeed. The built-in LocalScaling is an exception: its three support points sit at fixed angles, and half a turn around its own descriptor changes the field.", "quantifier": "all dimensions, orthogonal matrices, translations, modules of every kind and nesting (CompoundLandmarks excepted), controls, back ends and exact linear solvers", "why_tests_cant": "A test can only try a few rotations of a few scenes; equivariance is a statement over the whole orthogonal group and all configurations.", "anchors": ["imodal/DeformationModules/Abstract.py:DeformationModule", "imodal/DeformationModules/ImplicitModule1.py:ImplicitModule1Base", "imodal/DeformationModules/LocalConstrainedTranslations.py:LocalScaling", "imodal/HamiltonianDynamic/hamiltonian.py:Hamiltonian", "imodal/StructuredFields/StructuredField_0.py:StructuredField_0"]}
{"id": "C80", "title": "Shooting commutes with rigid motions of the scene, and does not depend on back end, solver or differentiator", "statement": "Shooting a scene placed elsewhere by a rigid motion gives, at every recorded time, the placed descriptors and turned moments of the original shoot, the same costs, and turned controls wherever the controls were given or the configuration is regular. In particular (identity motion) two runs of the same scene that differ only in the back ends, the exact linear solver and the exact automatic differentiation give the same states and costs.", "quantifier": "all rigid motions, module compounds, numbers of steps, end times, torch_euler with given or geodesic controls, and euler, midpoint and rk4 with geodesic controls, at smooth Hamiltonians", "why_tests_cant": "Trajectories of every length in every scene and every orthogonal matrix are covered; tests compare two trajectories up to rounding.", "anchors": ["imodal/HamiltonianDynamic/shooting.py:shoot", "imodal/HamiltonianDynamic/shooting.py:_shoot_euler", "imodal/HamiltonianDynamic/shooting.py:_shoot_torchdiffeq", "imodal/HamiltonianDynamic/hamiltonian.py:Hamiltonian"]}
{"id": "C81", "title": "The Hamiltonian is differentiable wherever it can be computed", "statement": "For every (compound) deformation module the Hamiltonian, as a function of all descriptors and moments, is differentiable at every configuration where it can be computed, with the geodesic controls recomputed at each configuration as well as with fixed controls: all directional derivatives exist and are given by one gradient, and the function is defined in a neighbourhood along each direction. The only assumption on the module is that the support and vector functions of local constrained translations are differentiable, which LocalScaling and LocalRotation satisfy. In particular the gradients that shooting asks of automatic differentiation exist, and a success of the linear systems implies that they stay solvable nearby.", "quantifier": "all dimensions, modules of every kind and nesting, back ends, exact linear solvers, descriptors, moments and controls", "why_tests_cant": "Finite differences at sample points cannot show that the derivative exists at every configuration, nor that the linear systems remain solvable around each of them.", "anchors": ["imodal/HamiltonianDynamic/hamiltonian.py:Hamiltonian", "imodal/DeformationModules/ImplicitModule1.py:ImplicitModule1Base", "imodal/DeformationModules/ImplicitModule0.py:ImplicitModule0Base", "imodal/HamiltonianDynamic/shooting.py:_shoot_euler"]}
{"id": "C82", "title": "Shooting never fails as long as controls can be computed", "statement": "With exact automatic differentiation that answers wherever a derivative exists, a step of torch_euler succeeds exactly when its controls can be computed. Modules whose linear systems are definite wherever their descriptors go (positive nu, ...) can be shot for any number of steps from any moments, by torch_euler with given or geodesic controls and by euler, midpoint and rk4 of torchdiffeq with geodesic controls, without any exception.", "quantifier": "all such modules, numbers of steps, end times, initial descriptors and moments, control lists", "why_tests_cant": "Absence of failure over all trajectories of all lengths is not observable on finitely many runs.", "anchors": ["imodal/HamiltonianDynamic/shooting.py:shoot", "imodal/HamiltonianDynamic/shooting.py:_shoot_euler", "imodal/HamiltonianDynamic/shooting.py:_shoot_torchdiffeq"]}
{"id": "C83", "title": "An atlas deforms and measures its template once per subject, the same way every time", "statement": "compute_deformed of an atlas in mode 'sequential' with a fixed template returns, in order, the template deformed by the model of each subject alone; the dictionary of intermediates receives one list of states and one of controls per subject and keeps its other entries. The 'attach' cost of evaluate is lam times the sum of the attachments of those deformed templates to the targets. Earlier evaluations, deformations and interrupted calls change neither. Unknown modes and missing settings raise. With optimise_template the moments of the hypertemplate are a learnable tensor of their own under 'ht'; (findings) the parallel mode cannot deform, and an atlas with optimise_template can be built but never evaluated nor deformed.", "quantifier": "all templates, modules, attachments, population sizes, targets, solvers, intermediate dictionaries, histories of calls", "why_tests_cant": "Independence between subjects and from all earlier calls quantifies over populations and histories of any length.", "anchors": ["imodal/Models/atlas.py:AtlasModel", "imodal/Models/atlas.py:compute_deformed", "imodal/Models/atlas.py:evaluate", "imodal/Models/atlas.py:compute_template"]}
{"id": "C84", "title": "Precompute callbacks run before each evaluation and their costs are added", "statement": "evaluate of a registration model runs the precompute callback first, on the model it then evaluates; the cost it returns is reported under 'precompute' and added to the other costs, its exceptions go through, and a wrong number of targets raises before the callback runs. Without a callback the costs are those of the plain evaluation. Callbacks that bring the model to the same state give the same costs again. In an atlas the callback of the models runs once per subject that has a target, and each reported cost is the sum of the subjects' ones. (Findings) compute_deformed does not run the callback, so it may return something else than what evaluate measured; the callback given for the atlas itself is never run.", "quantifier": "all callbacks (as functions of the tensors and of the model), models, targets, solvers, populations", "why_tests_cant": "A callback is an arbitrary function written by the user; tests try a few of them.", "anchors": ["imodal/Models/registration_model.py:evaluate", "imodal/Models/registration_model.py:compute_deformed", "imodal/Models/atlas.py:evaluate", "imodal/Models/atlas.py:precompute_callback"]}
{"id": "C85", "title": "The deformation cost of a registration model is the one chosen by reduce", "statement": "'sum' reports the sum of the costs recorded during the shooting, 'previous' the cost of the geodesic controls where the shooting ended (for models driven by their moments: the energy of the last state of the trajectory, never negative), 'lastcompound' the cost of the controls left by the shooting, 'totalcompound' the sum over the steps k of the cost of the k-th learned set of controls at the state where step k starts. The choice changes nothing else: attachments are the same. With Euler's method and one set of controls per step, 'sum' and 'totalcompound' agree. 'totalcompound' raises without learned controls. 'previous' also evaluates with torch_euler, with which 'sum' fails. (Findings) With the midpoint method and one set of controls per evaluation, 'totalcompound' pairs step k with set k although set 2k drives its start; a value of reduce that does not exist is accepted and then the deformation is not penalised at all.", "quantifier": "all models, values of reduce, targets, controls, solvers, numbers of steps", "why_tests_cant": "The four reductions look at different states and controls of one trajectory; a test compares numbers of one run with one scheme.", "anchors": ["imodal/Models/deformable.py:deformables_compute_deformed", "imodal/Models/registration_model.py:compute_deformed", "imodal/Models/registration_model.py:evaluate"]}
{"id": "C86", "title": "Exact geodesics keep their energy, and short Euler steps nearly do", "statement": "Along any curve that solves the equations integrated by geodesic shooting (each descriptor and moment moving with the Hamiltonian's derivatives, controls recomputed by compute_geodesic_control at each point), the Hamiltonian keeps one value; the same with controls given once and kept. One step of torch_euler changes the Hamiltonian by less than any chosen fraction of the step length, once the step is short enough.", "quantifier": "all modules built from the classes of the library and their compounds, exact solutions, intervals, solvers, steps", "why_tests_cant": "Exact solutions are not computed by the code, and a test sees one step length of one module.", "anchors": ["imodal/HamiltonianDynamic/hamiltonian.py:geodesic_controls", "imodal/HamiltonianDynamic/hamiltonian.py:Hamiltonian", "imodal/HamiltonianDynamic/shooting.py:shoot"]}
{"id": "C87", "title": "Exact geodesics of isotropic modules keep their angular momentum", "statement": "If turning the space about the origin does not change the settings of a module (the closures and matrices it holds), then along any exact geodesic the angular momentum (sum of points times moments, with the frames of oriented manifolds, minus its transpose) is constant in each plane. Shooting with torch_euler changes it at each step by exactly the squared step times the angular momentum of the velocity. (Finding) Hence, unlike the sum of the moments, it is not kept by shooting: one torch_euler step brings 1 to 0 in an example.", "quantifier": "all isotropic modules and compounds, exact solutions, planes, numbers of steps, solvers", "why_tests_cant": "A conservation law of every solution of every module; a test follows one approximate trajectory, where the law does not hold.", "anchors": ["imodal/HamiltonianDynamic/hamiltonian.py:geodesic_controls", "imodal/HamiltonianDynamic/shooting.py:shoot", "imodal/DeformationModules/Linear.py:LinearDeformation"]}
{"id": "C88", "title": "The order in which modules are listed, and how they are nested in compounds, do not matter", "statement": "Take two compounds with the same deformation modules, listed in another order or grouped otherwise in compounds of compounds. Given the same controls they generate the same vector field with the same derivative, at the same cost and with the same Hamiltonian. Their geodesic controls are the same, module by module. Shooting them, with torch_euler (geodesic or given controls) or with euler, midpoint or rk4 (geodesic controls), moves each module in the same way at each kept step, and yields the same costs.", "quantifier": "all modules and nestings, permutations of their leaves, controls, numbers of steps, solvers", "why_tests_cant": "It ranges over all permutations and all ways of nesting; the packing of the moments and the lists of controls depend on the order at every step.", "anchors": ["imodal/DeformationModules/Combination.py:CompoundModule", "imodal/HamiltonianDynamic/hamiltonian.py:Hamiltonian", "imodal/HamiltonianDynamic/shooting.py:shoot"]}
{"id": "C89", "title": "Comparing images through Fourier transforms or after resizing is still comparing images", "statement": "For pictures, the L2 attachment with transform 'fft' is the number of pixels times the squared distance of the pictures (the squared distance itself with normalized=True): it is zero for equal pictures only. Resizing with the default mode keeps this: enlarging both images k times multiplies the squared distance by k to the number of dimensions, resizing to their own size changes nothing, shrinking never increases it. Bad arguments are refused. (Findings) 'fft' on volumes keeps two frequencies of the last dimension instead of the real and imaginary parts, so that volumes arbitrarily far apart are at distance zero; it refuses signals; and with the torch of requirements.txt, where torch.fft is a module, it raises TypeError on every image.", "quantifier": "all images, sizes, scale factors, normalisations", "why_tests_cant": "Parseval's identity holds for every image of every size; a test compares a few.", "anchors": ["imodal/Attachment/attachment_l2.py:L2NormAttachment", "imodal/Utilities/sampling.py:interpolate_image"]}
{"id": "C90", "title": "More integration steps bring shoot() to the exact motion", "statement": "Let c be the exact solution of the geodesic equations that starts at the descriptors and moments the module holds, and let the Hamiltonian vector field change at most L times as fast as the state in some tube around c. Then there are N and C such that shoot() with torch_euler, or with any of the fixed-step schemes euler, midpoint, rk4, and it >= N steps ends with descriptors and moments that differ by at most C / it from c at the final time, and the n-th kept intermediate state differs by at most C / it from c at the n-th time.", "quantifier": "for every deformation module, exact solution, constant L, number of steps, integrator among the fixed-step ones, autograd giving exact derivatives", "why_tests_cant": "a test sees a few step numbers on a few modules; convergence is a statement about all step numbers and needs the exact solution", "anchors": ["imodal/HamiltonianDynamic/shooting.py:shoot", "imodal/HamiltonianDynamic/hamiltonian.py:Hamiltonian"]}
{"id": "C91", "title": "A manifold holds what it was built with, zeros elsewhere", "statement": "Building a manifold from descriptors, tangents and cotangents, each given or None, either succeeds or raises RuntimeError. If the tensors agree on device and dtype where the caller did not give them, and within each part, the manifold returns exactly the given tensors, holds zeros of shape (nb_pts, *shape) for what was not given, and reports the given device and dtype or the common ones of the tensors; with nothing given it is on the processor in the default dtype. If they disagree, RuntimeError is raised. A compound reports the device of its first member, the dtype its members agree on, and the sums of their sizes.", "quantifier": "for every list of shapes, number of points, combination of given parts, devices and dtypes, and every nesting of compounds", "why_tests_cant": "the combinations of parts, devices and dtypes and the nestings of compounds are unbounded; tests run on one device", "anchors": ["imodal/Manifolds/Abstract.py:Manifold", "imodal/Manifolds/Compound.py:CompoundManifold", "imodal/Manifolds/tensor_container.py:TensorContainer", "imodal/Utilities/usefulfunctions.py:shared_tensors_property"]}
{"id": "C92", "title": "Clones and fills copy everything", "statement": "clone(requires_grad=b) of a manifold has the same members in the same order, the same sizes, devices and dtypes, and in each of the three parts the same values, all with flag b. Cloning a container keeps shapes, values and flags. fill(other) copies the descriptors, tangents and cotangents of the other manifold, with the flags asked for when copying.", "quantifier": "for every manifold, compound of any depth, and every flag", "why_tests_cant": "a clone which forgets one part, one flag or the order of nested members passes tests on small manifolds whose tensors are equal", "anchors": ["imodal/Manifolds/Abstract.py:Manifold", "imodal/Manifolds/Abstract.py:BaseManifold", "imodal/Manifolds/Compound.py:CompoundManifold", "imodal/Manifolds/tensor_container.py:TensorContainer"]}
{"id": "C93", "title": "Conversions and refills change only what they are asked to", "statement": "to_(device) moves every tensor of a manifold, of any nesting, to the device, keeps values, dtypes and flags, and the manifold then reports that device; to_(dtype) likewise converts every tensor. Any other argument raises ValueError and changes nothing. fill_*_zeros and fill_*_randn put tensors of the declared shapes, of the reported device and dtype and with the flag asked for in the part, and *_requires_grad_(b) sets the flags of the part; the other parts, the sizes, the device and the dtype stay.", "quantifier": "for every manifold, every nesting of compounds, every device, dtype, flag and part", "why_tests_cant": "tests run on one device and inspect one part of small manifolds", "anchors": ["imodal/Manifolds/Abstract.py:BaseManifold", "imodal/Manifolds/Abstract.py:Manifold", "imodal/Manifolds/Compound.py:CompoundManifold", "imodal/Manifolds/tensor_container.py:TensorContainer"]}
{"id": "C94", "title": "No method of a manifold writes into existing memory", "statement": "With tensors as references to storages that may be shared, every method of a manifold (fill, add, negate, requires_grad_, zeros, randn, to_, fill from another manifold, clone) shows exactly the values and raises exactly the exceptions of the description by values, never overwrites a storage that existed before the call, and afterwards the manifold holds only storages it held before, storages of the tensors given without copy, or new ones; clone() holds only new ones.", "quantifier": "for every heap, every manifold and nesting of compounds in it, whatever they share, every call and every argument", "why_tests_cant": "tests compare values after one call, not who else sees the storages", "anchors": ["imodal/Manifolds/tensor_container.py:TensorContainer", "imodal/Manifolds/Abstract.py:Manifold", "imodal/Manifolds/Compound.py:CompoundManifold"]}
{"id": "C95", "title": "Which manifolds and tensors share memory, and which are independent", "statement": "A manifold and its clone (or any two manifolds without a common storage) stay independent under every history of method calls on either, fills of one from the other with copy=True and in-place writes to the tensors of either: each shows what it would show alone. Tensors given with copy=True stay the caller's. Tensors given to fill without copy, or to the constructor, are held themselves: the manifold shows what they show at any later time, also after requires_grad_ or to_ the device and dtype they already have; add, negate, zeros and randn end the sharing for their part.", "quantifier": "for every pair of manifolds in a heap, every history of calls and in-place writes, every argument", "why_tests_cant": "aliasing shows only in particular later histories of writes", "anchors": ["imodal/Manifolds/tensor_container.py:TensorContainer", "imodal/Manifolds/Abstract.py:Manifold", "imodal/Manifolds/Abstract.py:BaseManifold", "imodal/Manifolds/Compound.py:CompoundManifold"]}
{"id": "C96", "title": "Negating the moments retraces the motion", "statement": "Negating the moments of a module (negate_cotan, as the backward shooting of images does) gives the opposite geodesic controls with the same cost and Hamiltonian. An exact motion read backwards with opposite moments is an exact motion. Shooting, negating the moments and shooting again with the same number of steps brings the descriptors back to their starting values and the moments to the opposite of theirs, with an error at most C / it with C independent of it, for every scheme; so do the states in between, in the opposite order. The way back can be shot whenever the way out can. The return is not exact for a given number of steps.", "quantifier": "for every well-formed module, solver of the linear systems, motion, number of steps and fixed-step scheme", "why_tests_cant": "a test checks a few configurations up to a tolerance; the claim is a rate of convergence for all modules and all motions", "anchors": ["imodal/Models/deformable.py:deformables_compute_deformed", "imodal/Manifolds/Abstract.py:negate_cotan", "imodal/HamiltonianDynamic/shooting.py:shoot", "imodal/HamiltonianDynamic/hamiltonian.py:Hamiltonian"]}
{"id": "C97", "title": "Fields are linear in the controls, controls in the moments, and speeds are bounded by the cost", "statement": "The field generated with the controls c - s c' is the field generated with c minus s times the one generated with c', for values and first derivatives, at any points. The geodesic controls are linear in the moments. The squared speed that controls can give to a point in one coordinate is at most 4 y times their cost, y being the cost of the geodesic controls for a single landmark at that point with a unit moment, and these controls reach the bound; controls that are zero or cost nothing move nothing.", "quantifier": "for every well-formed regular module (compounds of any depth), all controls, factors, points and moments", "why_tests_cant": "ranges over all modules, all pairs of controls and all points; implicit modules go through linear solves", "anchors": ["imodal/DeformationModules/Abstract.py:DeformationModule", "imodal/DeformationModules/Combination.py:CompoundModule", "imodal/DeformationModules/ImplicitModule1.py:ImplicitModule1Base"]}
{"id": "C98", "title": "Multiplying the moments by s is running the motion s times faster", "statement": "Multiply every moment of a manifold by s: the geodesic controls are multiplied by s, the Hamiltonian by s squared, and the exact motion is the old one read s times faster, with moments multiplied by s. The fixed-step solvers respect this exactly: shooting up to s*t1 and shooting the multiplied moments up to t1, with the same number of steps, give the same positions at every step, moments multiplied by s, and recorded costs multiplied by s squared; and one can be shot when the other can. torch_euler, which ignores the end time, does not.", "quantifier": "all factors, module trees (local closures depending only on the values they are given), states, step counts, end times, the three fixed-step schemes, all exact solvers of linear systems and all exact gradients", "why_tests_cant": "The relation must hold for every module tree, state, scheme and step count; a test compares two runs within a tolerance.", "anchors": ["imodal/HamiltonianDynamic/shooting.py:shoot", "imodal/HamiltonianDynamic/shooting.py:_shoot_torchdiffeq", "imodal/HamiltonianDynamic/hamiltonian.py:Hamiltonian"]}
{"id": "C99", "title": "The model is left with the parameters whose cost is reported", "statement": "After optimize() the cost reported as final is the cost of the parameters left in the model, not larger than the initial one, and the reported number of evaluations is the number of evaluations made; the callback is called after each step with the costs of that step.", "quantifier": "every cost function (NaN and infinities included), every optimizer seen as a strategy that evaluates parameters of its choice, every number of iterations and tolerance", "why_tests_cant": "Holds or fails depending on the sequence of trial points of the optimizer; a test sees one sequence.", "anchors": ["imodal/Models/optimizer_torch.py:OptimizerTorch", "imodal/Models/optimizer_gd.py:OptimizerGradientDescent", "imodal/Models/optimizer_scipy.py:OptimizerScipy"]}
{"id": "C100", "title": "Each fit uses the options and the parameters it is given", "statement": "Every call of optimize() runs with the options given to that call and on the parameters the model has at that moment.", "quantifier": "every history of optimize and reset calls", "why_tests_cant": "Depends on the whole history of calls since the last reset.", "anchors": ["imodal/Models/optimizer_torch.py:OptimizerTorch"]}
{"id": "C101", "title": "Progress reports of a fit", "statement": "The iteration number grows by one per step until reset(); cost histories get one entry per step; the callback given to Fitter is called after each step; displaying progress never changes the outcome; the attributes minimum_found and total_evaluation_count of the gradient-descent optimizer tell whether a minimum was found and how many evaluations were made.", "quantifier": "every sequence of fits, every model, every number of steps", "why_tests_cant": "Quantifies over all histories of fits and all models.", "anchors": ["imodal/Models/fitter.py:Fitter", "imodal/Models/optimizer_gd.py:OptimizerGradientDescent"]}
{"id": "C102", "title": "A registration problem placed elsewhere by a rigid motion has the same costs", "statement": "Evaluating a registration model whose objects and modules have been moved by a rigid motion (points placed, directions, frames and moments turned), against targets moved by the same motion, gives the same deformation cost and the same attachment cost as the original problem, because shooting carries the motion along and because the point-wise and varifold attachments (curves in the plane, meshes in space, and their combinations) do not see a rigid motion of both of their arguments.", "quantifier": "every rigid motion (rotations, reflections and translations, any dimension), every compound of modules and objects made of points, grids or meshes, every number of steps of the fixed step schemes or torch_euler, every back end", "why_tests_cant": "It quantifies over all motions, all configurations and all numbers of integration steps; floating point tests would only compare a few of them approximately.", "anchors": ["imodal/Models/registration_model.py:RegistrationModel.evaluate", "imodal/Attachment/attachment.py:EuclideanPointwiseDistanceAttachment.loss", "imodal/Attachment/attachment_varifold.py:VarifoldAttachment3D", "imodal/HamiltonianDynamic/shooting.py:shoot"]}
{"id": "C103", "title": "Measuring everything in another unit of length gives the same deformation", "statement": "When every length of a problem (positions, scales sigma, moments of points, the constants of constraints) is multiplied by u, modules generate the same vector fields in the new unit: velocities are multiplied by u, their spatial derivatives are unchanged, costs and Hamiltonian are multiplied by u*u, the geodesic controls correspond, exact motions and shootings by torch_euler, euler, midpoint and rk4 pass through the same states in the new unit, and each recorded cost is multiplied by u*u. Parameters that have a unit must be converted: nu of ImplicitModule1 is divided by u*u and the coefficient of a linear module is multiplied by u*u; leaving that coefficient alone changes the motion.", "quantifier": "every unit u > 0, every compound of the library's modules (any nesting, numbers of points and dimension), every value of descriptors, moments and controls, every number of steps, every back end", "why_tests_cant": "It quantifies over all units, all configurations and all numbers of steps; a test compares finitely many, and in floating point only approximately.", "anchors": ["imodal/Kernels/kernels.py:K_xy", "imodal/DeformationModules/Abstract.py:DeformationModule", "imodal/DeformationModules/LocalConstrainedTranslations.py:LocalScaling", "imodal/HamiltonianDynamic/hamiltonian.py:Hamiltonian", "imodal/HamiltonianDynamic/shooting.py:shoot"]}
{"id": "C104", "title": "A fit does not depend on the coordinates in which the parameters are expressed", "statement": "Let the parameters of a model be expressed in other coordinates, each tensor by a similarity (rotation, reflection, translation, change of unit, e.g. point sets x -> u Q x + c; r is the ratio of the group), and let the costs of the placed parameters be ka > 0 times those of the original ones. If the gradients are those of the costs and the step lengths of each group are multiplied by r^2/ka, then every call of step() of the optimizer \"gd\" accepts the same trial and leaves the placed parameters and rescaled step lengths, for any number of steps. With equal costs a whole optimisation by \"gd\" or \"torch_sgd\" gives the same result (success, final cost, number of evaluations) or the same exception, the same costs to the callback at each iteration, and the placed parameters at each evaluation and at the end. Not so with the same step lengths when lengths are in another unit; nor is the decision to stop the same when costs are in another unit (findings).", "quantifier": "all parameter groups and shapes, similarities of each tensor, differentiable costs, optimizer settings, tolerances, numbers of iterations and of evaluations", "why_tests_cant": "a test compares two runs in two coordinate systems up to rounding; the claim is over all costs, all similarities and all lengths of run", "anchors": ["imodal/Models/optimizer_gd.py:OptimizerGradientDescent", "imodal/Models/optimizer_torch.py:OptimizerTorch"]}
{"id": "C105", "title": "A registration problem measured in another unit of length: costs are multiplied by u*u when lam is converted", "statement": "When every length of a registration problem is multiplied by u (objects, modules and moments as in C103, targets, scales of the varifold attachments), the loss of points in correspondence is multiplied by u, that of closed curves by u^2 and that of meshes by u^4, including losses that are NaN or infinite and compounds whose members are measured in the same unit. Evaluating the model in the new unit with lam multiplied by u^2 divided by that factor multiplies each cost of the dictionary by u*u. Keeping lam makes another problem, and for a compound that adds point-wise and varifold losses no conversion of lam exists.", "quantifier": "every unit u > 0, every compound of modules and objects made of points, grids or meshes, every attachment of the library on points, closed curves and meshes (any weights, scales, nesting of compounds), every number of steps of the fixed step schemes or torch_euler, every back end", "why_tests_cant": "It quantifies over all units, shapes, attachments and numbers of steps; a test compares finitely many, and in floating point only approximately.", "anchors": ["imodal/Models/registration_model.py:RegistrationModel.evaluate", "imodal/Attachment/attachment.py:EuclideanPointwiseDistanceAttachment.loss", "imodal/Attachment/attachment.py:CompoundAttachment.loss", "imodal/Attachment/attachment_varifold.py:VarifoldAttachment2D", "imodal/Attachment/attachment_varifold.py:VarifoldAttachment3D"]}
{"id": "C106", "title": "Sides of a line and closed shapes: the marked points are exactly those of the requested half-plane", "statement": "area_side marks, for each point of the list and in order, exactly the points strictly on the requested side of the line (left for +1 and by default, right for -1), and also the points of the line when intersect is set, whether the line is given by two points or by an origin and a direction; a single point gets a single mark; the answer depends on the line and its direction only; every point is on exactly one of left, right or the line. A line without direction marks every point with the value of intersect, and a line that is neither given by two points nor by origin and direction is a RuntimeError. point_side is +1 on the left, -1 on the right and 0 on the line, which is the opposite of its documentation. is_shape_closed tells whether the first and last vertices coincide, and what close_shape returns is closed, begins with the given vertices and has one more; empty shapes are an IndexError.", "quantifier": "every list of points of the plane of any length, every line, side and value of intersect; every shape of any number of vertices in any dimension", "why_tests_cant": "Points on the line, degenerate lines and the dependence on the line only are statements over all points and lines; a test samples finitely many.", "anchors": ["imodal/Utilities/meshutils.py:area_side", "imodal/Utilities/meshutils.py:point_side", "imodal/Utilities/meshutils.py:is_shape_closed", "imodal/Utilities/meshutils.py:close_shape"]}
{"id": "C107", "title": "Fitting a registration placed elsewhere gives the same fit, placed elsewhere", "statement": "Take a registration model without learned controls, and the model built from the same objects, modules, moments and targets all placed elsewhere by one isometry x -> Qx + c (a rotation, a reflection, a translation). Fitting both with the same optimizer, the same settings and exact gradients (the gradient descent with line search of OptimizerGradientDescent, or torch's SGD through OptimizerTorch) goes through the same run: the same evaluations, the same costs, the same decisions of the line search and of the stopping test, the same result; the moments tried and the moments left in the second model are those of the first one turned by Q. The moments a model starts from are turned as well, and with regular modules the model can be evaluated at any moments.", "quantifier": "every dimension, isometry, list of deformables and modules satisfying the well-formedness conditions, attachment that is itself invariant, fixed-step shooting scheme, number of steps, optimizer settings, number of iterations, tolerance and callback", "why_tests_cant": "It quantifies over all positions in space, all models and all histories of an optimizer; a test compares a few runs up to rounding and cannot tell invariance from a coincidence.", "anchors": ["imodal/Models/fitter.py:Fitter", "imodal/Models/registration_model.py:RegistrationModel.evaluate", "imodal/Models/optimizer_gd.py:OptimizerGradientDescent", "imodal/Models/optimizer_torch.py:OptimizerTorch"]}
{"id": "C108", "title": "Silent passengers (grids, points to follow) do not change the motion of the others", "statement": "Adding to a list of modules any number of silent modules (deformation grids, points, oriented points, frames to be carried along) whose moments are zero changes nothing for the other modules: the geodesic controls they get, the vector field generated, its cost and the Hamiltonian are the same; after shooting, with geodesic or given controls, their descriptors and moments at every stored step and at the end, and the recorded costs, are those of the shooting without the silent modules; and the moments of the silent modules are still zero.", "quantifier": "every compound of modules, every list of silent modules of any manifold without moments, all controls, numbers of steps and fixed-step schemes", "why_tests_cant": "A test compares one shooting with and without one grid; that the trajectories agree whatever the modules, the number and kind of the passengers and the scheme rests on an argument about the Hamiltonian and its derivatives along the whole run.", "anchors": ["imodal/HamiltonianDynamic/shooting.py:shoot", "imodal/HamiltonianDynamic/hamiltonian.py:Hamiltonian", "imodal/DeformationModules/SilentLandmark.py:SilentBase", "imodal/DeformationModules/SilentLandmark.py:DeformationGrid", "imodal/DeformationModules/Combination.py:CompoundModule"]}
{"id": "C109", "title": "Local scalings and rotations do around their centre what their names say", "statement": "For every kernel size, centre and control, the field of a LocalScaling in the plane vanishes at its centre and is there, to first order, the dilation of rate h e^(-1/18)/(2 sigma): a positive control expands. A LocalRotation in the plane vanishes at its centre and is there, to first order, the counterclockwise rotation of the same rate; in space it vanishes at its first point and is there x -> (4 h e^(-1/6)/(3 sigma)) x cross (second point - first point). Both planar fields commute with a third of a turn about the centre. Shot alone, with any controls or moments and any number of steps, such a module leaves its centre where it was. The documentation of LocalScaling says that its vectors point inwards; they always point outwards, which is a finding.", "quantifier": "all kernel sizes (non-zero), coefficients, centres and axes, controls, evaluation points, numbers of steps, sequences of controls or moments", "why_tests_cant": "A test evaluates the field at a few points for one centre and one control, and compares with tolerance; the exact first-order behaviour, the symmetry and the immobility of the centre are claims about all of them.", "anchors": ["imodal/DeformationModules/LocalConstrainedTranslations.py:LocalScaling", "imodal/DeformationModules/LocalConstrainedTranslations.py:LocalRotation", "imodal/DeformationModules/LocalConstrainedTranslations.py:LocalConstrainedTranslations_Torch"]}
{"id": "C110", "title": "Fitting a registration measured in another unit of length gives the same fit, in the other unit", "statement": "Take a registration problem and the same problem measured in another unit of length (coordinates, targets and length scales multiplied by u, the attachment cost multiplied by k), and let the weight of the attachment of the second be lam * u * u / k. Then the moments each registration starts from correspond; for every value of the moments the costs the fitter sees (deformation and attachment) are those of the first problem multiplied by u * u at the corresponding moments; the gradients correspond too, those of the moments of points being multiplied by u and those of the moments of directions and frames being unchanged; and, when the geometries and modules carry only points (no directions or frames), any number of steps of the gradient descent, with the same options and the same initial step lengths, gives the corresponding moments, with the same step lengths and the same number of evaluations. A whole fit also stops at the same iteration with the same success as long as the total costs reported stay at least 1 in both units; below 1 it need not, because the stopping test is relative above 1 and absolute below.", "quantifier": "every unit u > 0, every deformables, modules, attachments and targets, every weight, every scheme and number of iterations, every value of the moments, every options of the optimizer and every number of steps", "why_tests_cant": "A test fits one problem in one or two units; that the whole path of a fit only depends on the weight lam being converted ranges over all problems, units, options and numbers of steps.", "anchors": ["imodal/Models/fitter.py:Fitter", "imodal/Models/registration_model.py:RegistrationModel.evaluate", "imodal/Models/optimizer_gd.py:OptimizerGradientDescent"]}
{"id": "C111", "title": "An atlas placed elsewhere has the same costs; in another unit of length they are all multiplied by the square of the unit", "statement": "Take two atlas models without hypertemplate whose template, deformation modules, moments of every subject and targets correspond by one rigid motion (same lam, attachments indifferent to the motion). Evaluating them with the same fixed step solver and number of steps gives the same dictionary of costs, whatever the moments of the subjects are. In particular building an AtlasModel from the placed template, modules and targets and evaluating it gives the same costs. When all lengths are multiplied by u (attachments by k, lam by u^2/k) every entry of the dictionary is multiplied by u^2. Neither the number of subjects, the fit_gd option, the other parameters nor the callback stored by the atlas matters.", "quantifier": "all populations, templates, modules, moments, rigid motions, units, targets, fixed step schemes, numbers of steps, values of the other options of the atlas", "why_tests_cant": "A test places one atlas at one place; the property ranges over all rigid motions, units, populations and states of the moments.", "anchors": ["imodal/Models/atlas.py:AtlasModel", "imodal/Models/atlas.py:AtlasModel.evaluate", "imodal/Models/registration_model.py:RegistrationModel.evaluate", "imodal/Utilities/usefulfunctions.py:append_in_dict_of_list"]}
{"id": "C112", "title": "The subjects of an atlas are independent of each other and of their order", "statement": "For an atlas without hypertemplate and without precompute callback: (1) giving the subjects (models with their targets) in any other order, evaluating succeeds as well and every entry of the dictionary of costs is the same; (2) when the tensors used by the other subjects keep their values, the difference that changing the tensors of one subject makes to the sum of the costs of the atlas is exactly the difference it makes to the sum of the costs of the registration of that subject alone. So fitting the moments of one subject in the atlas or alone is the same problem.", "quantifier": "all atlases, populations, permutations, values of the tensors, targets, solvers, numbers of steps, clocks", "why_tests_cant": "Tests evaluate one atlas with one order of subjects and one state; the property ranges over all permutations, populations and values.", "anchors": ["imodal/Models/atlas.py:AtlasModel", "imodal/Models/atlas.py:AtlasModel.evaluate", "imodal/Models/registration_model.py:RegistrationModel.evaluate", "imodal/Utilities/usefulfunctions.py:append_in_dict_of_list"]}
{"id": "C113", "title": "Fitting an atlas with a fixed step is fitting its subjects one by one; with the line search of gd it is not", "statement": "For an atlas built without optimise_template, changing the initial moments of one subject changes the total cost of the atlas by exactly what it changes the cost of that subject's registration, whatever the moments of the other subjects; the part of the gradient that belongs to the subject is the gradient of its own registration; hence n iterations of a fit of the atlas with a fixed step (torch's SGD, stopping criterion not in force) leave the subject with exactly the moments that n iterations of its own fit leave. With the optimizer 'gd' this is false: the line search is common to all the tensors, so one stiff subject shortens the steps of all the others.", "quantifier": "every template, modules, attachment, population, targets, subject, values of all moments, solver, scheme and number of steps; every step length and number of iterations; exact gradients", "why_tests_cant": "it relates whole runs of two different optimisation problems, for every population size, every moments and every number of iterations", "anchors": ["imodal/Models/atlas.py:AtlasModel.evaluate", "imodal/Models/registration_model.py:RegistrationModel.evaluate", "imodal/Models/optimizer_torch.py:OptimizerTorch.optimize", "imodal/Models/optimizer_gd.py:OptimizerGradientDescent.step"]}
{"id": "C114", "title": "The order in which the objects and the modules of a registration are listed does not matter", "statement": "A registration problem is given as a list of objects with their attachments and targets, and a list of deformation modules. Listing the objects (with their attachments and targets) in another order, and the modules in another order, gives the same costs: the same deformation cost and the same attachment cost, for every fixed-step scheme and every number of steps, provided each attachment looks only at the values of the deformed points (the attachments of the library do, between points or meshes they can compare).", "quantifier": "all numbers of objects and modules, all permutations of each, all models shot by their moments without learned controls, all fixed-step schemes, numbers of steps and final times, all exact solvers and gradients, all attachments that depend only on the values of the deformed points", "why_tests_cant": "The two problems lead to different flattened systems, different block structures in the constraint solves and different packing of the moments; a test compares a few orders on a few models up to rounding.", "anchors": ["imodal/Models/registration_model.py:RegistrationModel.__init__", "imodal/Models/registration_model.py:RegistrationModel.evaluate", "imodal/Models/deformable.py:deformables_compute_deformed", "imodal/HamiltonianDynamic/shooting.py:shoot", "imodal/DeformationModules/Combination.py:CompoundModule"]}
{"id": "C115", "title": "A fit does not depend on the order in which objects, modules and parameter tensors are listed", "statement": "List the deformables of a registration (with their attachments and targets) in one order and its deformation modules in another: the two models start from the same moments, in the other order; at corresponding moments they have the same costs; and whole fits, with gradient descent and its line search or with a fixed step, return the same result, evaluate the cost at corresponding moments the same number of times, give the callbacks the same costs and leave corresponding moments. More generally, optimising a cost whose parameter tensors are listed in another order gives the same run with the tensors in the other order.", "quantifier": "every list of deformables and modules, every pair of permutations, every attachment that only reads tensor values, every fixed-step solver, number of steps, length of time, moments, optimiser setting, number of iterations, tolerance and callback, and every exact autograd and solver of linear systems", "why_tests_cant": "a test compares two orders on one data set with rounding noise; that no branch of the line search, of the parameter bookkeeping or of the shooting depends on the order is a statement about all permutations and all runs", "anchors": ["imodal/Models/registration_model.py:RegistrationModel.__init__", "imodal/Models/registration_model.py:RegistrationModel.evaluate", "imodal/Models/deformable.py:deformables_compute_deformed", "imodal/Models/optimizer_gd.py:OptimizerGradientDescent.step", "imodal/Models/optimizer_torch.py:OptimizerTorch.optimize", "imodal/HamiltonianDynamic/shooting.py:shoot"]}
{"id": "C116", "title": "Only the ratios of the coefficients matter for the motion", "statement": "Multiplying the argument coeff of every module by one number k > 0 and the initial moments by k gives the same motion: shooting goes through the same descriptors, with the same geodesic controls, moments k times as large and recorded costs k times as large, with every fixed-step scheme and for the exact motion. With the same moments the geodesic controls and their cost are divided by k; given controls move points in the same way at k times the cost. A registration whose coefficients, lam and initial moments are all multiplied by k has all its costs multiplied by k (sum and previous reductions of the deformation cost), and so has an atlas without hypertemplate. Translations takes no coefficient: for it the statement fails.", "quantifier": "for every k > 0, every module (compound of any depth) of classes having a coefficient, every geometry and moments for which the geodesic controls exist, every number of steps and scheme", "why_tests_cant": "the statement compares two runs for all coefficients, all modules and all trajectories; a test compares a few runs up to rounding", "anchors": ["imodal/DeformationModules/GlobalTranslation.py:cost", "imodal/DeformationModules/ImplicitModule0.py:cost", "imodal/DeformationModules/ImplicitModule1.py:compute_geodesic_control", "imodal/DeformationModules/Translation.py:TranslationsBase", "imodal/HamiltonianDynamic/shooting.py:shoot", "imodal/Models/registration_model.py:RegistrationModel.evaluate", "imodal/Models/atlas.py:AtlasModel.evaluate"]}
{"id": "C117", "title": "Multiplying all coefficients and lam by k gives the same fit with steps k times as long", "statement": "A registration whose coefficients, lam and initial moments are multiplied by k > 0 presents to the fitter, at moments multiplied by k, costs multiplied by k and the same gradients. Gradient descent on the moments with steps k times as long therefore goes through moments k times as large, with the same line searches and numbers of evaluations, after any number of steps. Whole fits with gd, and with torch's SGD with the learning rate multiplied by k, report the same success and number of evaluations and costs multiplied by k as long as the total costs stay above 1 in both problems (the stopping criterion compares with 1). With the same steps it does not: the moments are k times as large and the gradients are not.", "quantifier": "for every k > 0, every registration with modules having a coefficient and fitted through its moments, every attachment and target, all moments, every scheme and number of time steps, every number of iterations", "why_tests_cant": "it compares two runs of any length over all problems and all scalings", "anchors": ["imodal/Models/registration_model.py:RegistrationModel.evaluate", "imodal/Models/optimizer_gd.py:OptimizerGradientDescent.step", "imodal/Models/fitter.py:Fitter.fit"]}
{"id": "C118", "title": "With all moments zero nothing moves, at no cost", "statement": "Shooting a compound whose moments are all zero (as they are when manifolds are built without moments) leaves every descriptor and every moment as it was, in the end and in every intermediate state, for each fixed-step scheme and for torch_euler, whatever the duration and the number of steps; every recorded cost is 0 (in continuous time, an exact motion has zero velocity whenever its moments are zero) and so are the cost and the Hamiltonian of the geodesic controls. Evaluating a registration model in this state therefore compares the objects themselves with the targets, with deformation cost 0 for the reductions 'sum' and 'previous': a fit starts from the identity, and objects already on their targets (points compared with themselves) have all costs 0, and so has an atlas whose template is already on every target.", "quantifier": "all compounds of modules, descriptors, numbers of steps, durations, schemes, exact solvers and differentiators, registration models, targets", "why_tests_cant": "Both halves of Hamilton's equations have to vanish at every configuration of every mixture of modules; a test looks at a few modules and points.", "anchors": ["imodal/HamiltonianDynamic/shooting.py:shoot", "imodal/HamiltonianDynamic/hamiltonian.py:Hamiltonian", "imodal/Models/registration_model.py:evaluate"]}
