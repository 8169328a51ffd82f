{"id": "C01", "title": "Grid index round trip", "statement": "For every grid and every valid index i, state_to_index(index_to_state(i)) returns i; an index outside [0, nindex) raises ValueError.", "quantifier": "every dimension, every limits with lower<upper, every number of points >=2 per axis, every index", "why_tests_cant": "A test enumerates the indices of one or two fixed grids; the claim ranges over all dimensions, shapes, limits and indices.", "anchors": ["safe_learning/functions.py:GridWorld.index_to_state", "safe_learning/functions.py:GridWorld.state_to_index"]}
{"id": "C02", "title": "all_points enumerates the grid in index order", "statement": "Row i of all_points is index_to_state(i); all_points has exactly nindex rows, they are pairwise different, and they are exactly the points whose j-th coordinate is one of the j-th axis' discrete_points.", "quantifier": "every grid of every dimension", "why_tests_cant": "Any finite set of example grids leaves out other shapes/dimensions where the meshgrid order and the unravel order could diverge.", "anchors": ["safe_learning/functions.py:GridWorld.all_points", "safe_learning/functions.py:GridWorld.discrete_points", "safe_learning/functions.py:GridWorld.index_to_state"]}
{"id": "C03", "title": "state_to_index returns the nearest grid point", "statement": "For every state of the right dimension (inside the limits or not) state_to_index returns a valid index, no grid point is closer in any coordinate than the one it denotes, and inside the limits the distance is at most half a cell per axis; halfway between two neighbouring grid points the one with the even number is taken; a state of any other dimension raises DimensionError.", "quantifier": "every grid and every real state vector of any length", "why_tests_cant": "The state space is a continuum; rounding and clipping corner cases cannot be enumerated.", "anchors": ["safe_learning/functions.py:GridWorld.state_to_index", "safe_learning/functions.py:GridWorld._check_dimensions"]}
{"id": "C04", "title": "state_to_rectangle returns the cell containing the state", "statement": "For every state, the returned rectangle index is in [0, nrectangles); per axis the rectangle's lower edge <= coordinate < upper edge when the coordinate is inside the limits (the last cell also owns the upper limit), and coordinates outside map to the first/last cell.", "quantifier": "every grid, every real state", "why_tests_cant": "Continuum of states, unbounded dimension and resolution.", "anchors": ["safe_learning/functions.py:GridWorld.state_to_rectangle"]}
{"id": "C05", "title": "Rectangle conversions agree", "statement": "For every rectangle r: index_to_state(rectangle_corner_index(r)) = rectangle_to_state(r), state_to_rectangle(rectangle_to_state(r)+delta) = r for every delta inside the cell, and different rectangles have different corners.", "quantifier": "every grid, every rectangle index, every displacement inside the cell", "why_tests_cant": "Unbounded dimension, resolution and a continuum of displacements.", "anchors": ["safe_learning/functions.py:GridWorld.rectangle_to_state", "safe_learning/functions.py:GridWorld.rectangle_corner_index", "safe_learning/functions.py:GridWorld.state_to_rectangle"]}
{"id": "C06", "title": "GridWorld construction accepts exactly valid shapes and reports correct counts", "statement": "Construction fails with DimensionError exactly if some axis has fewer than 2 points, with ValueError exactly if num_points cannot be broadcast to the number of axes; otherwise nindex and nrectangles are the products of n_i and n_i-1, and (n_i-1)*unit_maxes_i is the width of axis i.", "quantifier": "every limits array and every scalar or vector num_points", "why_tests_cant": "All shapes, including broadcast and invalid ones, must be covered.", "anchors": ["safe_learning/functions.py:GridWorld.__init__", "safe_learning/functions.py:GridWorld.__len__"]}
{"id": "C07", "title": "PiecewiseConstant evaluates the nearest vertex and equals its parameter_derivative", "statement": "PiecewiseConstant(points) returns the parameter row of the nearest grid point of each point (in particular the stored values at the vertices); parameter_derivative(points) has one 1 per row and its product with the parameters equals the evaluation; the gradient is zero of shape (npoints, ndim).", "quantifier": "every grid, parameter matrix, and batch of points", "why_tests_cant": "Continuum of points, arbitrary batch sizes.", "anchors": ["safe_learning/functions.py:PiecewiseConstant.build_evaluation", "safe_learning/functions.py:PiecewiseConstant.parameter_derivative", "safe_learning/functions.py:PiecewiseConstant.gradient"]}
{"id": "C08", "title": "Triangulation.find_simplex always yields a real simplex of the containing cell", "statement": "find_simplex never returns an id outside [0, nsimplex), and simplices(find_simplex(x)) lists ndim+1 pairwise different valid grid indices which are corners of the cell state_to_rectangle(x), for states inside and outside the limits.", "quantifier": "every grid whose cells are wider than twice the machine epsilon, every valid triangulation of the unit cell, every state", "why_tests_cant": "The id arithmetic (cell id * nsimplex + local id, row-major corner shift) must be right for all dimensions, shapes and states.", "anchors": ["safe_learning/functions.py:_Triangulation.find_simplex", "safe_learning/functions.py:_Triangulation.simplices", "safe_learning/functions.py:_Triangulation._triangulation_simplex_indices", "safe_learning/functions.py:_Delaunay1D"]}
{"id": "C09", "title": "Interpolation weights are barycentric coordinates", "statement": "The weights used for a point sum to one and the weighted sum of the simplex vertices is the point itself (the projection onto the limits if project=True); hence affine functions are reproduced exactly everywhere, also outside the limits if project=False.", "quantifier": "every grid, valid unit triangulation, state, affine function", "why_tests_cant": "Continuum of states and all dimensions.", "anchors": ["safe_learning/functions.py:_Triangulation._get_weights", "safe_learning/functions.py:_Triangulation.build_evaluation", "safe_learning/functions.py:_Triangulation._update_hyperplanes"]}
{"id": "C10", "title": "Triangulation interpolates its vertex values", "statement": "Evaluating the triangulation at the state of grid index i returns exactly parameters[i], also for vertices on the border of the grid.", "quantifier": "every grid (cells wide against machine epsilon), every valid unit triangulation, every vertex, every parameter matrix", "why_tests_cant": "All dimensions and shapes; the border clipping by 2*eps must never select a simplex without that vertex. In float64 the modulus/digitize pair can disagree, which finite tests on dyadic grids never see.", "anchors": ["safe_learning/functions.py:_Triangulation.build_evaluation", "safe_learning/functions.py:_Triangulation.find_simplex", "safe_learning/functions.py:GridWorld._center_states"]}
{"id": "C11", "title": "Triangulation values stay between the vertex values", "statement": "For points inside the limits (beyond 2*eps of the border) all weights are in [0,1], so the value lies between the smallest and the largest parameter; with project=True the same holds for every point up to an explicit eps-sized error.", "quantifier": "every grid, valid unit triangulation, state, parameter vector", "why_tests_cant": "Continuum of states.", "anchors": ["safe_learning/functions.py:_Triangulation._get_weights", "safe_learning/functions.py:_Triangulation.build_evaluation"]}
{"id": "C12", "title": "parameter_derivative is the evaluation matrix", "statement": "The sparse matrix returned by parameter_derivative(points), multiplied with the parameters, equals the evaluation at these points, for any number of points and outputs and independently of the parameters.", "quantifier": "every batch of points, every parameter matrix", "why_tests_cant": "Index bookkeeping of rows/cols/data must be right for all batch sizes and dimensions.", "anchors": ["safe_learning/functions.py:_Triangulation.parameter_derivative", "safe_learning/functions.py:_Triangulation.build_evaluation"]}
{"id": "C13", "title": "Gradients are the exact slopes and match gradient_parameter_derivative", "statement": "Within one simplex f(y)-f(x) = gradient(x).(y-x); gradient_parameter_derivative(points).dot(parameters) reshaped point-major to (npoints, ndim) equals gradient(points). The reshape(ndim, -1) promised in the docstring does not give the gradients.", "quantifier": "every grid, valid unit triangulation, pair of states in one simplex, batch of points", "why_tests_cant": "Continuum of states; flattening order must be right for all batch sizes and dimensions.", "anchors": ["safe_learning/functions.py:_Triangulation.gradient", "safe_learning/functions.py:_Triangulation.gradient_parameter_derivative", "safe_learning/functions.py:_Triangulation._get_weights_gradient"]}
{"id": "C14", "title": "The TensorFlow Triangulation computes the same function as the numpy one", "statement": "Triangulation and _Triangulation return the same values for all points, with and without projection, and the same gradients for the current parameters.", "quantifier": "every grid, parameters, points, project flag, history of parameter assignments", "why_tests_cant": "All inputs and all interleavings of evaluation, gradient and parameter updates.", "anchors": ["safe_learning/functions.py:Triangulation.build_evaluation", "safe_learning/functions.py:Triangulation._get_hyperplanes", "safe_learning/functions.py:Triangulation.gradient"]}
{"id": "C15", "title": "update_safe_set returns exactly the certified sublevel prefix plus the initial set", "statement": "After update_safe_set(can_shrink=True) without refinement, a grid state is safe iff it is in the initial set or it and all states before it in the value order are certified (decrease bound below threshold) or initially safe. The result does not depend on the batch size nor on previous safe sets.", "quantifier": "every grid size, batch size, value array, certificate outcome, initial set, tie-breaking order, previous state", "why_tests_cant": "The batch loop works by in-place mutation of views and early break; all sizes relative to the batch size, all positions of the first failure must be right.", "anchors": ["safe_learning/lyapunov.py:Lyapunov.update_safe_set", "safe_learning/utilities.py:batchify"]}
{"id": "C16", "title": "The initial safe set is never lost", "statement": "After any sequence of update_values/update_safe_set calls with any arguments, every state of the initial safe set is in safe_set and has refinement 1.", "quantifier": "every history of calls, adaptive or not", "why_tests_cant": "Histories are unbounded.", "anchors": ["safe_learning/lyapunov.py:Lyapunov.__init__", "safe_learning/lyapunov.py:Lyapunov.update_safe_set"]}
{"id": "C17", "title": "Every state below c_max is safe once the smallest state is certified", "statement": "After update_safe_set, if the state of smallest Lyapunov value was certified or known safe, every grid state whose value is strictly below the published c_max is in the safe set and c_max is the value of a safe state. Without refinement c_max is the value of the last state of the certified prefix unless all states are certified: then it is the largest value for a single batch, and the value of the last state before the last batch if there are several. If the smallest state is not certified, c_max is the largest value of all (so the unconditional claim is false).", "quantifier": "every value array, certificate outcome, initial set, batch size", "why_tests_cant": "The published level is computed from the loop variables i, bound, refine_bound after the loop; all exits of the loop matter (nothing certified, everything certified, last batch).", "anchors": ["safe_learning/lyapunov.py:Lyapunov.update_safe_set", "safe_learning/lyapunov.py:Lyapunov.c_max"]}
{"id": "C18", "title": "can_shrink=False keeps safe states while the values are unchanged", "statement": "For every history of update_safe_set calls on a new object without a change of the Lyapunov values in between, update_safe_set(can_shrink=False) keeps every state that was safe before the call; with changed values it can remove safe states.", "quantifier": "every history of calls and of changes of the Lyapunov values", "why_tests_cant": "Depends on the history and on the batch boundary.", "anchors": ["safe_learning/lyapunov.py:Lyapunov.update_safe_set"]}
{"id": "C19", "title": "Refinement bookkeeping matches the safe set", "statement": "After every call the recorded refinement N(x) is at least 1 exactly on the safe states and 0 on unsafe states.", "quantifier": "every history of calls, adaptive or not", "why_tests_cant": "Two arrays are mutated in parallel along every path of the loop; histories are unbounded.", "anchors": ["safe_learning/lyapunov.py:Lyapunov._refinement", "safe_learning/lyapunov.py:Lyapunov.update_safe_set"]}
{"id": "C20", "title": "A certified grid state certifies its neighbourhood", "statement": "If the decrease condition v_decrease_bound < threshold(tau) holds at a state c, the Lyapunov function is lv-Lipschitz, the closed loop is lf-Lipschitz and the model is right, then V strictly decreases from every state within tau of c. With callables (local constants) this needs the constant at c to hold around the successor of c as well; a constant that only holds within tau of c, which is all the class documentation asks for, is not enough.", "quantifier": "every norm-like distance, Lipschitz V and dynamics, tau >= 0, state", "why_tests_cant": "Quantifies over a continuum of states and all functions.", "anchors": ["safe_learning/lyapunov.py:Lyapunov.threshold", "safe_learning/lyapunov.py:Lyapunov.update_safe_set"]}
{"id": "C21", "title": "Error bounds of uncertain dynamics are accounted for", "statement": "For dynamics returning (mean, error), v_decrease_bound is an upper bound on V(f(x))-V(x) for every f whose value is within the error bounds of the mean, given per-coordinate Lipschitz constants of V; for deterministic dynamics it is the exact change.", "quantifier": "every dynamics consistent with the bounds, every V with these Lipschitz constants", "why_tests_cant": "Infinitely many true dynamics are compatible with one prediction.", "anchors": ["safe_learning/lyapunov.py:Lyapunov.v_decrease_confidence", "safe_learning/lyapunov.py:Lyapunov.v_decrease_bound"]}
{"id": "C22", "title": "Trajectories from the verified level set never leave it and reach the initial set", "statement": "If the premises hold (constants that are right on the box of the grid and its successors, right model at the grid states, tau at least the covering radius, level set inside the grid, initial set safe, smallest state certified) every trajectory of the true closed loop that starts in {V < c_max - lv*tau} stays there for ever, and V strictly decreases in every step from a state whose nearest grid state is not in the initial set. There is one number of steps within which all these trajectories, and those from the safe grid states up to c_max, visit a state whose nearest grid state is in the initial set. The larger set {V < c_max} is not invariant in general.", "quantifier": "every dynamics, Lyapunov function, grid, initial state and number of steps", "why_tests_cant": "Infinite horizon and a continuum of initial states.", "anchors": ["safe_learning/lyapunov.py:Lyapunov.update_safe_set", "safe_learning/lyapunov.py:Lyapunov.is_safe", "safe_learning/lyapunov.py:Lyapunov.c_max"]}
{"id": "C23", "title": "More conservative inputs give smaller safe sets", "statement": "If the certificate holds at fewer states (larger error bounds, Lipschitz constants, or tau) the new safe set is contained in the old one; the new c_max is at most the old one provided that the smallest state stays certified and the larger safe set is not the whole grid (without this proviso the level can grow).", "quantifier": "every pair of certificates ordered pointwise", "why_tests_cant": "All pairs of problem instances.", "anchors": ["safe_learning/lyapunov.py:Lyapunov.update_safe_set", "safe_learning/lyapunov.py:Lyapunov.threshold"]}
{"id": "C24", "title": "An accepted refinement certifies only the grid state itself", "statement": "With adaptive=True, a state outside of the initial set that is safe after update_safe_set(can_shrink=True) with recorded refinement N has 1 <= N <= max(1, max_refinement) and satisfies the decrease condition with tau/N at the grid state itself; with safety factor 1 no smaller N does. The condition does not have to hold at the N^d refined points (the code builds them but evaluates the decrease at the centre), and V can increase inside of the cell of a state added by refinement although all constants are right.", "quantifier": "every dynamics, state, max_refinement", "why_tests_cant": "Continuum of functions; the refined points are never looked at in the tests.", "anchors": ["safe_learning/lyapunov.py:Lyapunov.update_safe_set (refined_safety_check)"]}
{"id": "C25", "title": "is_safe answers for the nearest grid state", "statement": "is_safe(x) is the safe_set entry of the grid point nearest to x for every state of the right dimension, and raises DimensionError for others; after every history of updates it is True in all cells of the initial set.", "quantifier": "every state, every history of updates", "why_tests_cant": "Continuum of states and histories.", "anchors": ["safe_learning/lyapunov.py:Lyapunov.is_safe"]}
{"id": "C26", "title": "smallest_boundary_value is the minimum over all boundary grid points", "statement": "The result is the least value of the function over the grid points that have some coordinate at its first or last value: a lower bound for all of them and attained.", "quantifier": "every grid of every dimension and every function", "why_tests_cant": "All functions and dimensions.", "anchors": ["safe_learning/lyapunov.py:smallest_boundary_value"]}
{"id": "C27", "title": "get_lyapunov_region returns a connected region around the start that never touches the boundary", "statement": "For an interior start node (Python 2; in Python 3 the call always raises AttributeError) the search terminates and returns a connected region that contains the start node and no boundary node. The search stops at a node z that is a boundary node next to the region or a region node with a smaller value than another one; no outside neighbour (of a region node other than z) has a smaller value than z. If all sublevel sets on the grid are connected and contain the start, the region is the set of nodes with values below smallest_boundary_value up to nodes with exactly that value. In general neighbours outside can have smaller values than nodes inside, and a start node on the lower boundary wraps around, so that boundary nodes enter the region.", "quantifier": "every grid, value array and interior starting node", "why_tests_cant": "Search over arbitrary landscapes, all exits of the loop.", "anchors": ["safe_learning/lyapunov.py:get_lyapunov_region"]}
{"id": "C28", "title": "get_safe_sample returns the most uncertain certified pair, or the policy action", "statement": "With perturbations, get_safe_sample returns a state of the safe set (of the drawn subset if num_samples is given) with a perturbed, clipped policy action that is certified to map into the level set below c_max (and, unless positive=True, to a safe grid state in the mean), and no certified proposal has a larger summed error bound. If the model is right, the true successor is below c_max. If nothing is certified, the clipped policy action in the most uncertain tested state is returned, which is then not certified; if no state is safe the call raises ValueError. With actions instead of perturbations the call only works for one state and one action dimension, ignores the limits, and raises NameError if nothing is certified. Dynamics that return no error bounds (a deterministic function) make the call a TypeError.", "quantifier": "every safe set, policy, dynamics, perturbations, limits, sub-sampling outcome", "why_tests_cant": "Randomised, depends on all dynamics and candidate sets.", "anchors": ["safe_learning/lyapunov.py:get_safe_sample"]}
{"id": "C29", "title": "perturb_actions enumerates all perturbed pairs", "statement": "Without limits perturb_actions returns one row per state and perturbation, grouped by state, row i*X+j being state i with action i plus perturbation j. With limits it returns exactly the pairs with clipped actions, each once; the states are unchanged and every action is within its limits. A single column of actions, of perturbations or of limits is used for every action dimension.", "quantifier": "every number of states, actions and perturbations", "why_tests_cant": "All sizes and values.", "anchors": ["safe_learning/lyapunov.py:perturb_actions", "safe_learning/utilities.py:unique_rows"]}
{"id": "C30", "title": "Value iteration converges geometrically to the unique fixed point", "statement": "If every expected successor of a grid state is well inside of the limits (2 eps) or a grid state and 0 <= gamma < 1, the Bellman equation of the policy has exactly one solution and n calls of value_iteration bring the values within gamma^n of their initial distance of it; for general successors the same holds with gamma*c < 1 where c bounds the absolute interpolation weights. gamma < 1 alone is not enough: with extrapolation (project=False, successors outside) the iterates can diverge although the equation has a solution.", "quantifier": "every learner on a triangulated grid, reward, deterministic or uncertain dynamics, starting values, number of iterations", "why_tests_cant": "Convergence quantifies over infinite sequences and all starts.", "anchors": ["safe_learning/reinforcement_learning.py:PolicyIteration.value_iteration", "safe_learning/reinforcement_learning.py:PolicyIteration.future_values"]}
{"id": "C31", "title": "optimize_value_function computes the policy's value function", "statement": "For 0 <= gamma < 1 and non-negative interpolation weights the linear program always has an optimum, the optimum is the unique solution of the Bellman equation and hence the limit of value iteration, and it is what is assigned; every other solver status is an OptimizationError. With gamma = 1 the program can be unbounded and the call fails.", "quantifier": "every learner, gamma in [0,1), every solver that only claims optima", "why_tests_cant": "All problem instances.", "anchors": ["safe_learning/reinforcement_learning.py:PolicyIteration._run_cvx_optimization", "safe_learning/reinforcement_learning.py:PolicyIteration.optimize_value_function"]}
{"id": "C32", "title": "discrete_policy_optimization picks the first best allowed action", "statement": "For every state of the policy's grid the assigned action is one of the options; if some option has slack >= 0 there, it has slack >= 0 and the largest future value among those, the first one among ties; if no option is allowed, the first option is assigned (so an unsafe action can be selected). The call succeeds with at least one option and a slack per state; without options it is a ValueError. A triangulation policy then takes exactly these actions at its grid states.", "quantifier": "every action set, value function, constraint and grid", "why_tests_cant": "All value tables and constraint patterns including infeasible ones.", "anchors": ["safe_learning/reinforcement_learning.py:PolicyIteration.discrete_policy_optimization"]}
{"id": "C33", "title": "Greedy policies improve", "statement": "If v is the value function of the policy (Bellman equation on the value function's grid), the options contain the policy's allowed actions, and the new policy takes the actions of discrete_policy_optimization at the grid states, then the new policy's value function is at least v at every state (0 <= gamma < 1, successors of the new policy with non-negative weights).", "quantifier": "every learner, options, constraint, new policy", "why_tests_cant": "All problem instances, infinite horizon values.", "anchors": ["safe_learning/reinforcement_learning.py:PolicyIteration.discrete_policy_optimization", "safe_learning/reinforcement_learning.py:PolicyIteration.value_iteration"]}
{"id": "C34", "title": "bellmann_error is zero exactly on solutions", "statement": "bellmann_error(states) is non-negative, and zero iff the value function satisfies the Bellman equation at every given state; on the grid states it is zero iff the vertex values solve the Bellman equation of the policy. The target is held constant in its gradient: moving the vertex values by r*h changes the differentiated quantity by -2r sum(delta*direction) + r^2 sum(direction^2).", "quantifier": "every value function, set of states, direction", "why_tests_cant": "All functions and state sets.", "anchors": ["safe_learning/reinforcement_learning.py:PolicyIteration.bellmann_error"]}
{"id": "C35", "title": "future_values uses the mean dynamics and the Lyapunov penalty", "statement": "future_values = reward + gamma*value(mean successor) for the explicit actions, else the given policy, else self.policy, for deterministic and uncertain dynamics alike. With a Lyapunov object and uncertain dynamics, multiplier*(decrease bound - threshold) is subtracted, so the result is at most the value penalised with the true decrease for every successor within the bounds, and exact for zero error. With a Lyapunov object and deterministic dynamics the call raises NameError.", "quantifier": "all combinations of optional arguments, kinds of dynamics and functions", "why_tests_cant": "All argument combinations for all functions.", "anchors": ["safe_learning/reinforcement_learning.py:PolicyIteration.future_values"]}
{"id": "C36", "title": "batchify partitions arrays in order", "statement": "For batch_size >= 1 the yielded batches concatenate to the arrays, offset i is the position of the batch, all but the last batch have batch_size rows, none is empty; all arrays are cut at the same positions. A batch size of 0 yields nothing and a negative one at most a single batch without the last rows, both without an error.", "quantifier": "every array length and batch size", "why_tests_cant": "All lengths relative to the batch size.", "anchors": ["safe_learning/utilities.py:batchify"]}
{"id": "C37", "title": "combinations lists the Cartesian product", "statement": "combinations([]) is a ValueError; otherwise combinations(arrays) has one row per element of the Cartesian product, each exactly once per index combination, with the second array running fastest, then the first, the third, and so on; linearly_spaced_combinations gives prod(num_samples) rows, exactly the combinations of the evenly spaced values, including both bounds for two samples or more.", "quantifier": "every number of arrays and lengths", "why_tests_cant": "All dimensions; meshgrid's xy order and the transposition interact per dimension.", "anchors": ["safe_learning/utilities.py:combinations", "safe_learning/utilities.py:linearly_spaced_combinations"]}
{"id": "C38", "title": "unique_rows keeps exactly the distinct rows", "statement": "unique_rows returns every row of the input exactly once, up to the bits of the floats: two rows that are equal as numbers but differ in the sign of a zero are both kept.", "quantifier": "every array", "why_tests_cant": "All arrays.", "anchors": ["safe_learning/utilities.py:unique_rows"]}
{"id": "C39", "title": "Storage behaves like a map keyed by function and index", "statement": "As long as a calling function uses its storage always with or always without an index, get_storage returns exactly what the last set_storage of the same calling function with the same index stored (None before), with the names in order; other functions never interfere. If one function mixes both forms they share a dictionary, so the claim is false without the proviso.", "quantifier": "every sequence of get/set calls", "why_tests_cant": "Histories of interleaved calls.", "anchors": ["safe_learning/utilities.py:get_storage", "safe_learning/utilities.py:set_storage"]}
{"id": "C40", "title": "compute_trajectory simulates the closed loop", "statement": "The result has num_steps states and num_steps-1 actions, starts with the initial state, and for every i actions[i]=policy(states[i]) and states[i+1]=dynamics(states[i],actions[i]); longer simulations extend shorter ones; num_steps <= 0 raises ValueError. A dynamics model with a single output for a larger state is not rejected but broadcast.", "quantifier": "every dynamics, policy, start, number of steps", "why_tests_cant": "All lengths and functions.", "anchors": ["safe_learning/utilities.py:compute_trajectory"]}
{"id": "C41", "title": "Constrained optimisation steps respect their bounds", "statement": "After add_weight_constraint's step each bounded variable is within its bounds, whatever the optimiser did and whenever TensorFlow reads the variable; variables without a bound keep the optimiser's update. gradient_clipping applies only gradients inside the limits, unchanged where they were inside; variables without a limit are dropped, so not every variable is updated; a variable with a limit on which the loss does not depend is a ValueError.", "quantifier": "every optimiser step, variables, bounds", "why_tests_cant": "All update values.", "anchors": ["safe_learning/utilities.py:add_weight_constraint", "safe_learning/utilities.py:gradient_clipping"]}
{"id": "C42", "title": "concatenate_inputs makes multi-argument calls equal to concatenated ones", "statement": "Calling a decorated function with several arrays equals calling it with their column-wise concatenation; numbers and 1-d arrays count as one row; different numbers of rows and missing arguments raise ValueError; tensors with two axes give the same entries as arrays. Tensors with one axis are passed on unchanged or rejected, unlike arrays.", "quantifier": "every number and shape of arguments", "why_tests_cant": "All arities and shapes.", "anchors": ["safe_learning/utilities.py:concatenate_inputs"]}
{"id": "C43", "title": "dlqr and lqr return the optimal feedback and its cost to go", "statement": "With P the returned solution of the discrete Riccati equation, R and P symmetric: x'Px = x'Qx + u'Ru + x+'Px+ at u=-Kx; with R, P positive semi-definite no input gives a smaller right-hand side (every other input a larger one if R is positive definite); over every horizon the feedback's cost plus the final cost to go is x'Px, and every input sequence costs at least x'Px minus its final cost to go; x'Px decreases by at least x'Qx per step, strictly if Q is positive definite, and P is then positive definite. The call succeeds if P is positive semi-definite and R positive definite, and passes on the solver's errors. For lqr the derivative of x'Px along dx/dt=Ax+Bu is at least -(x'Qx+u'Ru), with equality exactly at u=-Kx for positive definite R.", "quantifier": "every system of every dimension over every real field, every horizon and input sequence", "why_tests_cant": "All dimensions and matrices.", "anchors": ["safe_learning/utilities.py:dlqr", "safe_learning/utilities.py:lqr"]}
{"id": "C44", "title": "Function arithmetic is pointwise", "statement": "Every expression built with +, * and unary - from functions and numbers evaluates at every point to the pointwise combination (failing exactly where a part fails), entries are added, multiplied and negated; the parameters are those of the parts from left to right; with several inputs the parts see the concatenated input. A number to the left of a function (1 + f, 2 * f) is a TypeError, everything else is accepted.", "quantifier": "every expression tree of functions and constants, every parameter state, every point", "why_tests_cant": "Unbounded expression nesting.", "anchors": ["safe_learning/functions.py:Function.__add__", "safe_learning/functions.py:Function.__mul__", "safe_learning/functions.py:Function.__neg__", "safe_learning/functions.py:AddedFunction", "safe_learning/functions.py:MultipliedFunction", "safe_learning/functions.py:ConstantFunction"]}
{"id": "C45", "title": "copy_parameters copies products but not sums or saturations", "statement": "For structurally equal products of leaves and constants with own variables, after a.copy_parameters(b) a evaluates everywhere like b, b and all other variables are unchanged; what the call returns cannot be evaluated. For sums the second summand receives the parameters of the source's first summand, so the copy differs from the source. For saturations the values are copied but the call always ends in an AttributeError. Shape mismatches of a leaf are a ValueError and copy nothing.", "quantifier": "every expression tree, every parameter state", "why_tests_cant": "Unbounded expression nesting; tests only copy leaves.", "anchors": ["safe_learning/functions.py:Function.copy_parameters", "safe_learning/functions.py:AddedFunction.copy_parameters", "safe_learning/functions.py:MultipliedFunction.copy_parameters", "safe_learning/functions.py:Saturation.copy_parameters"]}
{"id": "C46", "title": "Saturation stays within its bounds and is exact inside", "statement": "Each output entry of Saturation lies within its bounds (numbers or arrays that broadcast to the output, lower <= upper), equals the wrapped output where that is within the bounds, else the violated bound, and is the closest admissible value; with crossed bounds it is the upper one. Only functions with dimensions (not sums, products, constants) can be wrapped, and a saturation takes one input.", "quantifier": "every wrapped function, bounds, point", "why_tests_cant": "All values.", "anchors": ["safe_learning/functions.py:Saturation.build_evaluation"]}
{"id": "C47", "title": "FunctionStack evaluates column-wise; data can be added one measurement at a time only", "statement": "Mean and error of a stack are the members' outputs side by side, for members with equally many rows; other row counts and member errors are rejected. add_data_point with one row of >= 2 outputs gives member k the inputs and entry k. One output for one member is a TypeError; several rows for several single-output members is a ValueError after the first member received the inputs; several rows for one member adds all inputs but one output. The property parameters always raises TypeError.", "quantifier": "every number of members, outputs and data points", "why_tests_cant": "All stack sizes and batch sizes.", "anchors": ["safe_learning/functions.py:FunctionStack.build_evaluation", "safe_learning/functions.py:FunctionStack.add_data_point", "safe_learning/functions.py:FunctionStack.parameters"]}
{"id": "C48", "title": "GP data and cache stay consistent over accepted calls; rejected calls are not atomic", "statement": "After any history of accepted add_data_point calls on a model with data, the data are the initial data followed by all added rows in order, there are as many inputs as outputs, the cache is that of the current data, and all of it is fed. A rejected call never changes the fed data and cache (what is evaluated) but, except for a wrong number of input columns, leaves the inputs (and possibly outputs) added; once input and output counts differ every further well-formed call is rejected. With data, differing counts are never accepted; without initial data several inputs with one output are.", "quantifier": "every history of calls including failing ones", "why_tests_cant": "Histories with failures part-way (crash points).", "anchors": ["safe_learning/functions.py:GaussianProcess.add_data_point", "safe_learning/functions.py:GPRCached.update_cache"]}
{"id": "C49", "title": "GPRCached predicts the exact GP posterior for every scale", "statement": "With an inverse S of K + s2 I and a triangular factor from the Cholesky decomposition, build_predict returns the textbook posterior m(x) + k(X,x)'S(Y-m(X)) and k(x,z) - k(X,x)'S k(X,z), with full_cov for every pair of points and otherwise the diagonal plus Kdiag(x) - K(x,x) (zero for a kernel whose Kdiag is the diagonal of K); the inverse exists whenever the cache was computed; neither the internal scale nor the factor changes any prediction. For positive semi-definite kernels and positive noise the cache is always computed. Equivalently, the mean and the standard deviation of every member are those obtained by solving the linear equations (K + s2 I) a = Y - m(X) and (K + s2 I) b = k(X,x).", "quantifier": "every data set, kernel, mean function, non-zero scale, factor and set of points, over every real field", "why_tests_cant": "All data sizes and values.", "anchors": ["safe_learning/functions.py:GPRCached._compute_cache", "safe_learning/functions.py:GPRCached.build_predict"]}
{"id": "C50", "title": "GP error bounds only shrink with data, the intervals need not be nested", "statement": "The predictive variance is between Kdiag(x) - K(x,x) (zero for a kernel whose Kdiag is the diagonal of K) and the prior variance Kdiag(x), and full covariances are positive semi-definite; the variance never increases when data points are added, so for fixed beta >= 0 the error bounds of GaussianProcess never grow and never exceed beta times the prior standard deviation. The intervals mean +- error are not nested: a measurement can move the interval to one disjoint from it.", "quantifier": "every positive semi-definite kernel, positive noise, data set and added points", "why_tests_cant": "All data sets and histories.", "anchors": ["safe_learning/functions.py:GPRCached.build_predict", "safe_learning/functions.py:GaussianProcess.build_evaluation"]}
{"id": "C51", "title": "Quadratic and linear functions are what they say", "statement": "For square P and inputs of matching total width QuadraticFunction evaluates x'Px for each row of the concatenated input; gradient is its derivative in every direction, also for non-symmetric P, and f(x+h)=f(x)+grad(x).h+f(h). Non-square matrices are not rejected but broadcast. LinearSystem([A1,A2,..]) maps inputs x1,x2,.. of matching widths to A1 x1 + A2 x2 + .., accepts exactly inputs of the total width, rejects matrices of different height and nothing else; numbers and vectors count as 1x1 and one-row matrices; a bare 2d array in place of the list is flattened, row after row, into a one-output system.", "quantifier": "every dimension, number of matrices, matrix and input", "why_tests_cant": "All dimensions and values.", "anchors": ["safe_learning/functions.py:QuadraticFunction", "safe_learning/functions.py:LinearSystem"]}
{"id": "C52", "title": "NeuralNetwork.lipschitz bounds the slope with biases, not without; the output scale is left out", "statement": "For contractive nonlinearities and use_bias=True (or at most one hidden layer), |f(x)-f(y)| <= |output_scale| * lipschitz() * |x-y| in the Euclidean norm, so lipschitz() is a Lipschitz constant when |output_scale| <= 1; each factor is the exact norm of a weight matrix. With use_bias=False and two or more hidden layers every second hidden layer is left out and lipschitz() can be too small by any factor, and for |output_scale| > 1 it is too small as well. Before the first evaluation lipschitz() raises IndexError.", "quantifier": "every depth, width, weights, bias setting and pair of inputs", "why_tests_cant": "All architectures, weights and inputs.", "anchors": ["safe_learning/functions.py:NeuralNetwork.lipschitz", "safe_learning/functions.py:NeuralNetwork._parameter_iter", "safe_learning/functions.py:NeuralNetwork.build_evaluation"]}
{"id": "C53", "title": "sample_gp_function interpolates draws from the prior only", "statement": "There is one function per drawn sample y; it is m(x) + sum_j k(x,Z_j) a_j with (posterior covariance + 1e-8 I) a = y. At the discretization points it equals y + m(Z) + (K - posterior covariance) a - 1e-8 a. So without data and with zero prior mean it misses the drawn values by 1e-8 a only, in length at most 1e-8/(lam+1e-8) |y| for smallest kernel eigenvalue lam; with a non-zero prior mean the mean is counted twice, and with data the values are wrong. noise=True adds sqrt(noise) times a normal number. Models with several outputs are rejected; otherwise sampling always succeeds for positive semi-definite kernels.", "quantifier": "every GP, data set, discretization and draw", "why_tests_cant": "All draws and GPs.", "anchors": ["safe_learning/functions.py:sample_gp_function"]}
{"id": "C54", "title": "LyapunovNetwork is positive definite", "statement": "The constructor accepts exactly layer dimensions that never decrease; then evaluation succeeds for all weights, the value is zero at the origin and positive elsewhere if eps > 0 and the activations vanish at zero only, and it is at least (c eps)^(2 layers) |x|^2 if the activations satisfy |f u| >= c |u|. Without eps a network with three inputs and one layer is never positive definite, and with rectified linear units negative inputs have the value zero.", "quantifier": "every architecture, weights and input", "why_tests_cant": "All weights and inputs.", "anchors": ["examples/utilities.py:LyapunovNetwork"]}
{"id": "C55", "title": "The example systems: units, equilibria and step", "statement": "For non-zero normalisations normalize and denormalize undo each other; a normalised system is the physical one in other units; at rest with zero action the pendulum and the cart-pole stay where the sine of the angle is zero, and the Van der Pol system stays at the origin; as a function of dt the step starts at the state and has the slope given by ode. The Van der Pol system insists on a third input column although it has no action.", "quantifier": "every normalisation, state, action and parameters", "why_tests_cant": "All values.", "anchors": ["examples/utilities.py:InvertedPendulum", "examples/utilities.py:CartPole", "examples/utilities.py:VanDerPol"]}
{"id": "C56", "title": "compute_roa marks the states near the equilibrium after the horizon, not the region of attraction", "statement": "The result marks a grid state iff horizon-1 steps of the closed loop end within tol of the equilibrium (by default the origin), the same with and without trajectories, and the trajectories are those of the closed loop; if the tol-ball is invariant a longer horizon only adds marks. A marked state need not converge and a converging one need not be marked. Horizon 0 is the same as 1 without trajectories and an IndexError with them.", "quantifier": "every dynamics, horizon, grid, tolerance", "why_tests_cant": "All dynamics and horizons.", "anchors": ["examples/utilities.py:compute_roa"]}
{"id": "C57", "title": "find_nearest returns the nearest element and its index", "statement": "For an array in increasing order the returned index is valid and holds the returned value, no entry is nearer to the reference value, and among equally near entries it is a largest one; an empty array is an IndexError. With sorted_1d=False the value is still a nearest entry, but the index refers to a sorted copy and not to the given array.", "quantifier": "every array and value", "why_tests_cant": "All arrays.", "anchors": ["examples/utilities.py:find_nearest"]}
{"id": "C58", "title": "Class weights balance the classes", "statement": "All weights are positive, the counts are the sizes of the classes (of the four cells of the confusion matrix), and each class or cell that occurs has total weight equal to the number of samples (scale_by_total) or 1. One that does not occur has total weight 0.", "quantifier": "every label vector", "why_tests_cant": "All label vectors.", "anchors": ["examples/utilities.py:balanced_class_weights", "examples/utilities.py:balanced_confusion_weights"]}
{"id": "C59", "title": "derivative_monomials is the derivative of monomials up to degree 3 in two dimensions", "statement": "For two-dimensional points and degrees up to 3 derivative_monomials returns the partial derivatives of the features of monomials, in the same order; the features are all monomials up to the degree for degrees 1 to 4. From degree 4 on five features have no derivative, degree 5 adds nothing, in three dimensions the numbers of features and derivatives differ, in one dimension the derivatives are an IndexError.", "quantifier": "every point and degree", "why_tests_cant": "Continuum of points.", "anchors": ["examples/utilities.py:monomials", "examples/utilities.py:derivative_monomials"]}
{"id": "C60", "title": "constrained_batch_sampler applies one filter only", "statement": "Without an action limit exactly the sampled states which map into [-1,1]^d are returned, in order; with an action limit exactly those with actions within the limit, including states that map outside. A single admissible state comes back as a vector, and cannot be padded; no admissible state gives no rows rather than a zero state; zero_pad appends that many zero rows.", "quantifier": "every random batch, policy, dynamics", "why_tests_cant": "Random batches.", "anchors": ["examples/utilities.py:constrained_batch_sampler"]}
{"id": "C61", "title": "Asking for gradients by simplex index is equivalent but overwrites the index array", "statement": "gradient_parameter_derivative(indices=find_simplex(points)) returns the same matrix as gradient_parameter_derivative(points), and giving both or neither argument raises TypeError. The call overwrites the caller's index array with the ids modulo the simplices per cell, so the claim that inputs are left alone is false.", "quantifier": "every triangulation, batch of points, index array", "why_tests_cant": "Aliasing of the caller's array shows only in later uses of it.", "anchors": ["safe_learning/functions.py:_Triangulation.gradient_parameter_derivative", "safe_learning/functions.py:_Triangulation._get_weights_gradient"]}
{"id": "C62", "title": "linearize is the discretized derivative of the dynamics at the origin", "statement": "linearize() discretizes exactly the matrix of partial derivatives of ode (in normalised units) at the origin: for the pendulum with non-negative friction, for the cart-pole with pole length 1 and for the Van der Pol system with damping 1. For other pole lengths the row of the cart's acceleration in the state matrix is too small by the factor of the length (everything else is right); for other dampings and negative friction it linearizes another system.", "quantifier": "every mass, length, friction, normalisation and discretization method", "why_tests_cant": "Needs derivatives for all parameters; tests use one parameter set.", "anchors": ["examples/utilities.py:InvertedPendulum.linearize", "examples/utilities.py:CartPole.linearize", "examples/utilities.py:CartPole.ode", "examples/utilities.py:VanDerPol.linearize"]}
{"id": "C63", "title": "reward_rollout is a truncated discounted return", "statement": "reward_rollout returns for every state the discounted sum of the rewards of the first T steps of the closed loop, where T is the horizon or the first step at which all discounted rewards are below tol in size. With bounded rewards that do not grow in size along trajectories the result misses every longer return by at most the larger of tol*g/(1-g) and b*g^horizon/(1-g); in general, rewards that come after a step with small ones are lost.", "quantifier": "every dynamics, reward, discount, horizon, tolerance", "why_tests_cant": "The truncation error is a statement about all horizons.", "anchors": ["examples/utilities.py:reward_rollout"]}
{"id": "C64", "title": "compute_closedloop_response returns the response to the reference", "statement": "The arrays have steps+1 rows, start with the initial condition (zero by default), times are multiples of dt, actions are the policy's, and each next state is the dynamics at the state and the action plus the reference. The impulse has area 1, the step is constant, zero is zero, and other names are a NameError; with the zero reference an equilibrium is kept.", "quantifier": "every dynamics, policy, number of steps, reference", "why_tests_cant": "All systems and lengths of the simulation.", "anchors": ["examples/utilities.py:compute_closedloop_response"]}
{"id": "C65", "title": "get_parameter_change measures the largest change", "statement": "By default the result is the largest absolute change of an entry over all parameters, so it is zero iff no parameter changed; '-inf' gives the smallest change, order 1 the sum of the changes and order 2 the root of the sum of their squares. The documented orders 'fro' and 'nuc' raise ValueError for every input; different numbers of entries raise ValueError, except that a single number is compared with every entry of the other side.", "quantifier": "every pair of parameter lists", "why_tests_cant": "All parameter values; stopping criteria rely on zero meaning no change.", "anchors": ["examples/utilities.py:get_parameter_change"]}
{"id": "C66", "title": "gridify covers the box of the maxima in normalised units", "statement": "For non-zero norms the limits of the grid times the norms are -maxes and maxes (default: the norms, that is [-1,1]^d), with the given number of points per dimension; the grid is usable iff there are two points or more and each maximum has the sign of its norm. Fewer points are a DimensionError; opposite signs give an axis with reversed limits without an error.", "quantifier": "every norms, maxes, number of points", "why_tests_cant": "All scalings.", "anchors": ["examples/utilities.py:gridify"]}
{"id": "C67", "title": "Grid lookups survive double precision on resolved grids", "statement": "With binary64 arithmetic, for every grid whose limits are at most 2^40 spacings away from the origin (2 to 2^31 points per axis, spacing between 2^-40 and 2^400): index_to_state is within 1/128 spacing of the exact grid point, state_to_index(index_to_state(i)) is i, state_to_rectangle of a grid point is the rectangle of the exact one, and for arbitrary states state_to_index returns a grid point whose distance in each coordinate is at most 1/2 + 1/64 spacings (after clipping to the limits) and state_to_rectangle a cell which contains the state up to 1/128 spacing. Without the bound on the limits the round trip fails: on [2^54, 2^54+4] with five points index 1 comes back as index 0.", "quantifier": "every resolved grid in any dimension, every index, every state", "why_tests_cant": "Rounding errors depend on limits and number of points; tests use a few grids.", "anchors": ["safe_learning/functions.py:GridWorld.index_to_state", "safe_learning/functions.py:GridWorld.state_to_index", "safe_learning/functions.py:GridWorld.state_to_rectangle"]}
{"id": "C68", "title": "In double precision a triangulation interpolates in one dimension but not in two", "statement": "With binary64 arithmetic a triangulated function on a resolved one-dimensional grid returns exactly the given value at every grid point but the last one, and at every point between the limits it returns the linear interpolation of the two neighbouring values up to 2^-43 * (A / gap) * B, where A is the largest magnitude of a limit, gap the distance of the grid points and B the largest magnitude of a value (the hyperplane solver having a relative error of at most 2^-50 on 1 x 1 matrices). In two dimensions this fails: on [-1,1]^2 with 7 x 7 points, find_simplex combines the cell found by np.digitize with local coordinates from `%` which wrap around at the opposite corner of the cell, and at the grid point 40 the returned value does not depend on the value given for that point (the function which is 1 there and 0 at the other grid points evaluates to 0).", "quantifier": "every resolved 1-D grid, values, grid point and point between the limits; for the failure every result of the linear solver and every triangulation with the two triangles that the repository's test expects", "why_tests_cant": "The failure occurs at a few grid points only, and with other grids at none.", "anchors": ["safe_learning/functions.py:_Triangulation.build_evaluation", "safe_learning/functions.py:_Triangulation.find_simplex", "safe_learning/functions.py:GridWorld._center_states"]}
{"id": "C69", "title": "all_points and index_to_state list the same points up to the last coordinate", "statement": "With binary64 arithmetic, for every resolved grid each coordinate of all_points[i] equals that of index_to_state(i), or is the upper limit, from which index_to_state(i) differs by at most 1/128 spacing; state_to_index maps both to i. They are not always equal: for 50 points on [0, 1] the last point is 1 in all_points and 1 - 2^-53 by index.", "quantifier": "every resolved grid in any dimension, every index", "why_tests_cant": "The difference is one unit in the last place and only for some numbers of points.", "anchors": ["safe_learning/functions.py:GridWorld.all_points", "safe_learning/functions.py:GridWorld.index_to_state"]}
{"id": "C70", "title": "Triangulation is as steep as its largest gradient if its cells fit together", "statement": "Let L bound the sums of the absolute entries of the gradients that Triangulation.gradient reports for one output at points inside the limits; such a bound always exists. For grids with one axis, for grids with two axes whose cell is split into triangles that meet in common edges, and for grids with more axes whose split also fits together across neighbouring cells, two evaluations at points that differ by at most r in every coordinate differ by at most L*r, no matter in which cells and simplices the points lie. This holds exactly for points at least 2*EPS inside the limits, and with L*(r + 4*EPS) for all points inside the limits. With three axes a correct triangulation of the cell is not enough: copies of the cell may cut a common face along different diagonals, and the interpolated function then jumps at that face, so that no Lipschitz constant exists. Splitting every cell along the orders of its coordinates meets the contract of Delaunay on the points that the constructor passes and does fit together, for every number of axes, so every usable grid with any vertex values has a Lipschitz triangulation.", "quantifier": "all grids, vertex values, points, bounds L and distances r; all triangulations of the cell that meet the contract of scipy.spatial.Delaunay", "why_tests_cant": "Continuity is a statement about all pairs of points, arbitrarily close to cell borders; tests evaluate finitely many points and in two dimensions only.", "anchors": ["safe_learning/functions.py:Triangulation", "safe_learning/functions.py:_Triangulation"]}
{"id": "C71", "title": "The first call fixes the functions that update_safe_set and get_safe_sample use", "statement": "Both build their TensorFlow graph at the first call and reuse it. As long as tensors can be evaluated (see C87), in every later call update_safe_set works with the policy, dynamics, Lyapunov function, Lipschitz constants, tau and safety factor of its first call, evaluated with the current variables and data; get_safe_sample with the functions, constants and number of action dimensions of its first call and the current safe set and level. If no attribute is assigned and the same safety factor and action dimension are used, this is the same as building the graph anew, so new data is always taken into account. A policy or dynamics assigned after the first call is ignored; after assigning adaptive every call is a ValueError that changes nothing. A call that fails for another reason changes nothing either, if the initial set has one entry per state (see C85 for other lengths). The stored values are always those of the Lyapunov function given to the constructor at the last update_values that worked. The initial set of the moment is in the safe set with refinement 1 after every successful call.", "quantifier": "every program of assignments, changes of variables and data, update_values, update_safe_set and get_safe_sample calls, of any length", "why_tests_cant": "A statement about all sequences of calls and assignments; tests call each method once per object.", "anchors": ["safe_learning/lyapunov.py:Lyapunov.update_safe_set", "safe_learning/lyapunov.py:Lyapunov.update_values", "safe_learning/lyapunov.py:get_safe_sample", "safe_learning/utilities.py:get_storage", "safe_learning/utilities.py:set_storage"]}
{"id": "C72", "title": "update_safe_set forgets the previous safe set unless can_shrink is False", "statement": "With can_shrink (the default) safe set, refinement, level and exception of update_safe_set depend only on the initial set, the values, adaptive and the certificates, not on what the object held before. Hence assigning initial_safe_set after construction is the same as passing it to the constructor. Without can_shrink this is false: with the assigned initial set the search starts from the old safe set, and states are missing that are found when the set is passed to the constructor.", "quantifier": "every pair of objects that agree in initial set, values and adaptive, every certificate, batch size, refinement and sort order", "why_tests_cant": "Independence of the past is a statement about pairs of histories.", "anchors": ["safe_learning/lyapunov.py:Lyapunov.update_safe_set", "safe_learning/lyapunov.py:Lyapunov.__init__"]}
{"id": "C73", "title": "Exploration with get_safe_sample keeps a true system below the level", "statement": "Let the model be right about the true system (its bounds contain the true successor) whenever it is used. In every program that adds data, updates the safe set and samples without assigning attributes, as long as tensors can be evaluated (see C87): the successor of a sampled state-action pair has a Lyapunov value below c_max of the last update, also if data was added since, or the pair is the clipped policy action. If the value of the successor is below c_max - lv*tau, the policy keeps it there for ever. If the unclipped policy action is returned, the value decreases from the sampled state unless that state is in the initial set. A ValueError is raised only if there is no safe state or no sample is requested. Without the margin lv*tau the policy can leave {V < c_max} in the step after the sample.", "quantifier": "every true system, model, data history, grid, perturbations, action limits and number of steps", "why_tests_cant": "A safety claim about all trajectories of an unknown system after any sequence of experiments.", "anchors": ["safe_learning/lyapunov.py:Lyapunov.update_safe_set", "safe_learning/lyapunov.py:get_safe_sample"]}
{"id": "C74", "title": "Policy iteration converges to the best policy", "statement": "If value function and policy are Triangulations on the same grid, the interpolation weights at the next states are not negative and 0 <= gamma < 1, the Bellman optimality equation over the options of discrete_policy_optimization (those the constraint permits) has exactly one solution, which no permitted policy exceeds in any state. The loop of optimize_value_function and discrete_policy_optimization, started with a permitted policy, never lowers a value, shrinks the distance to the optimum by gamma per round and reaches it exactly after at most (options)^(states) rounds; the loop with value_iteration shrinks the distance by gamma from any start, and the policy that is greedy for values at distance D is within 2 gamma D/(1-gamma) of the optimum. If the policy has a coarser grid than the value function an improvement can lower values.", "quantifier": "for all grids, triangulations, dynamics, rewards, discounts, option lists, constraints, initial tables and numbers of rounds", "why_tests_cant": "A test runs a few rounds on one problem; that every round improves, the rate and the exact end hold only as a statement over all problems and rounds.", "anchors": ["safe_learning/reinforcement_learning.py:optimize_value_function", "safe_learning/reinforcement_learning.py:discrete_policy_optimization", "safe_learning/reinforcement_learning.py:value_iteration"]}
{"id": "C75", "title": "Operations of PolicyIteration remember different attributes", "statement": "In a program that never assigns attributes, operations created once and evaluated many times and the stored graph of discrete_policy_optimization work as if everything were recomputed from the current tables. If attributes are assigned, every discrete_policy_optimization after the first uses dynamics, reward_function and gamma of the first call; the operation of value_iteration uses all three from its creation; the operation of optimize_value_function uses dynamics and reward_function from its creation but the gamma at the time of its evaluation. So two operations of one object can work with different discounts.", "quantifier": "for all programs of assignments, operation creations, evaluations and improvements", "why_tests_cant": "The tests call each method once on a new object; which state an operation reads shows only in sequences with assignments in between.", "anchors": ["safe_learning/reinforcement_learning.py:value_iteration", "safe_learning/reinforcement_learning.py:optimize_value_function", "safe_learning/reinforcement_learning.py:_run_cvx_optimization", "safe_learning/reinforcement_learning.py:discrete_policy_optimization", "safe_learning/utilities.py:get_storage"]}
{"id": "C76", "title": "Negated value functions as Lyapunov functions", "statement": "If the table of the value function solves the Bellman equation of the policy and the dynamics are deterministic, the decrease that Lyapunov computes for the negated value function at a grid state is the reward minus (1-gamma) times the value of the next state. If the negated value is at most kappa times the cost and kappa (1-gamma) < 1 it therefore shrinks by the factor (1-1/kappa)/gamma < 1. Without such a bound the optimal value function of a deterministic system need not be a Lyapunov function, even if the costs vanish in the origin only and the origin is reached.", "quantifier": "for all grids, triangulations, deterministic dynamics, policies, rewards, discounts and grid states", "why_tests_cant": "The example asserts the claim in prose and a test sees one system; that the claim depends on the ratio of value and cost needs the general identity and a counterexample.", "anchors": ["safe_learning/reinforcement_learning.py:future_values", "safe_learning/reinforcement_learning.py:optimize_value_function", "safe_learning/lyapunov.py:Lyapunov.v_decrease_bound"]}
{"id": "C77", "title": "Discretization constants of the examples", "statement": "Every state of the grid's box is within 1-norm distance tau of a grid state exactly if tau is at least half of the sum of unit_maxes (the choice of adaptive_safety_verification and lyapunov_function_learning). The largest spacing (1d_example) is large enough on grids with one or two axes, but never with three or more axes of equal spacing; the smallest spacing (inverted_pendulum) with two axes only if both spacings are equal; 1/nindex (1d_region_of_attraction_estimate) is too small on [-1, 1] for every number of states.", "quantifier": "for all grids", "why_tests_cant": "A test samples states of one grid; that no state is further away, and that the constant cannot be smaller, concerns the whole box and every grid.", "anchors": ["examples/adaptive_safety_verification.ipynb:tau", "examples/1d_example.ipynb:tau", "examples/inverted_pendulum.ipynb:tau", "examples/1d_region_of_attraction_estimate.ipynb:tau", "safe_learning/functions.py:GridWorld.__init__"]}
{"id": "C78", "title": "Lipschitz constants of the closed loop in the examples", "statement": "For linear dynamics A x + B u and a policy with 1-norm constant l, norm(A, 1) + norm(B, 1) l is a 1-norm constant of the closed loop; a linear policy -K has the constant norm(-K, 1), and saturating a policy keeps its constant. The largest entries of A and B (inverted_pendulum) give a 1-norm constant only after multiplication with the number of states; by themselves they are no constant of the closed loop in the 1-norm, the maximum norm or the Euclidean norm.", "quantifier": "for all dimensions, matrices, policies and pairs of states", "why_tests_cant": "Lipschitz constants quantify over all pairs of states, and the formulas over all matrices.", "anchors": ["examples/adaptive_safety_verification.ipynb:L_dyn", "examples/inverted_pendulum.ipynb:lipschitz_dynamics", "safe_learning/functions.py:LinearSystem.build_evaluation", "safe_learning/functions.py:Saturation.build_evaluation"]}
{"id": "C79", "title": "Gradients as Lipschitz constants of quadratic Lyapunov functions", "statement": "The examples use the absolute gradient at a state as Lipschitz constant of the quadratic Lyapunov function. The decrease condition at a grid state then guarantees the decrease within tau if the gradient is multiplied by k with k^2 times the smallest eigenvalue at least the largest diagonal entry (so for multiples of the identity, and in one dimension, as it is); without the factor it does not, even for linear dynamics with right constants. For uncertain dynamics the bound of v_decrease_bound with the gradient at the mean is never an upper bound unless all errors are zero: some successor within the errors exceeds it; adding (sum_j sqrt(P_jj) error_j)^2 makes it one.", "quantifier": "for all dimensions, symmetric positive definite matrices, closed loops, states and error bounds", "why_tests_cant": "Quantifies over the continuum of states around a grid state and over all successors within error bounds.", "anchors": ["examples/adaptive_safety_verification.ipynb:L_v", "examples/lyapunov_function_learning.ipynb:L_v", "safe_learning/lyapunov.py:Lyapunov.threshold", "safe_learning/lyapunov.py:Lyapunov.v_decrease_confidence"]}
{"id": "C80", "title": "Finer grids and the safe set", "statement": "If the Lyapunov function decreases by more than m at all grid states up to a level outside of the initial set, and m exceeds lv (1 + lf) tau plus twice the model error weighted with lv, update_safe_set declares all states up to the level safe, and unless every state is certified c_max is at least their values. For every box, constants and m there is a number of points per axis from which on every grid, used with half of the sum of its spacings as tau, meets this condition. A finer grid used with its own smaller tau can nevertheless certify less: a state that is safe on a grid need not be safe on the grid with the midpoints added. It is safe if the tau of the coarse grid leaves room for the tau of the finer grid and the state lies below c_max by lv times half of the sum of the coarse spacings.", "quantifier": "for all grids, dynamics, Lyapunov functions, orders, batch sizes, margins and numbers of points", "why_tests_cant": "Quantifies over all grids finer than a bound; a test runs on single grids, where a shrinking safe set looks like a property of the system.", "anchors": ["safe_learning/lyapunov.py:Lyapunov.update_safe_set", "safe_learning/lyapunov.py:Lyapunov.threshold", "safe_learning/functions.py:GridWorld"]}
{"id": "C81", "title": "ellipse_bounds returns points of the level set", "statement": "For a symmetric positive definite P and a positive level, ellipse_bounds returns n / 2 (n rounded up to an even number) values x with two values each such that both points lie on x' P x = level and differ except for the first. The x start at an extreme of the ellipse, move strictly towards the other one and never reach it; they start at the largest x only if eigvec[0, 0] is not negative. The second array is the upper bound exactly if the determinant of the eigenvectors has the sign of eigvec[0, 0] (positive if that is zero), otherwise it is the lower bound. For a matrix that is not symmetric the points are not on the level set. With a numpy that refuses floats in slices (1.12 and later) every call raises TypeError.", "quantifier": "for all symmetric positive definite 2 x 2 matrices, levels, numbers of points and results of the eigenvalue decomposition", "why_tests_cant": "A plot shows that one ellipse looks right; the sign conventions of the eigenvectors are not under the control of a test.", "anchors": ["safe_learning/utilities.py:ellipse_bounds"]}
{"id": "C82", "title": "ScipyDelaunay numbers the grid points differently", "statement": "The points of ScipyDelaunay are exactly the vertices of the GridWorld with the same limits and numbers of points, each once. With one axis the order is that of all_points. With two or more axes the first two axes are exchanged: the point with number (j n0 + i) m + q is the vertex with number (i n1 + j) m + q of the grid, where m is the number of points in the remaining axes, and the vertices with number m are different on every grid.", "quantifier": "for all grids with any number of axes, and all vertices", "why_tests_cant": "Index arithmetic over all dimensions and counts; the unit test compares the number of simplices only.", "anchors": ["safe_learning/functions.py:ScipyDelaunay.__init__", "safe_learning/functions.py:GridWorld.all_points"]}
{"id": "C83", "title": "Decrease check in double precision", "statement": "For a QuadraticFunction, a LinearSystem policy and LinearSystem dynamics, evaluated in double precision with any order of summation, with or without fused operations, the computed decrease differs from V(F(x)) - V(x) of the exact closed loop by at most an explicit bound in the entries, the state and the computed actions and next states. A state whose computed decrease lies below the computed threshold by this bound plus the bound for the threshold satisfies the exact condition V(F(x)) - V(x) < -lv (1 + lf) tau. Without this slack the check proves nothing: there is a system for which every state is a fixed point, V = x^2, the constants are right, and every order of summation computes a decrease of 17 where 10 is asked for.", "quantifier": "for all matrices, states, dimensions, orders of summation and constants", "why_tests_cant": "Unit tests compare with a tolerance on a few numbers; the error of a check depends on the data and on an order of summation that TensorFlow does not fix.", "anchors": ["safe_learning/lyapunov.py:Lyapunov.v_decrease_bound", "safe_learning/lyapunov.py:Lyapunov.threshold", "safe_learning/functions.py:QuadraticFunction.build_evaluation", "safe_learning/functions.py:LinearSystem.build_evaluation"]}
{"id": "C84", "title": "Safe sets computed in double precision", "statement": "Let a Lyapunov object use a QuadraticFunction, a LinearSystem policy and LinearSystem dynamics, with the values, the decreases, the threshold and the grid points all computed in double precision, in any order of summation. If tau exceeds 65/64 of the cell radius by enough to pay for the rounding errors of the check, then after update_safe_set the true closed loop, computed exactly, does not leave the set of states with V(x) < c_max - lv radius - ev, where ev bounds the errors of the stored values, and V decreases along it except where the nearest grid state is in the initial set. The same holds for every Lyapunov object whose values are within ev and whose certificate is right at points within r of the grid states.", "quantifier": "for all resolved grids of any dimension, matrices, constants, orders of summation, batch sizes, states and numbers of steps", "why_tests_cant": "The tests compare masks on small grids; that rounding errors anywhere on the way cannot certify an unsafe set is a statement about all of them.", "anchors": ["safe_learning/lyapunov.py:Lyapunov.update_safe_set", "safe_learning/lyapunov.py:Lyapunov.threshold", "safe_learning/lyapunov.py:Lyapunov.v_decrease_bound", "safe_learning/functions.py:GridWorld.index_to_state", "safe_learning/functions.py:GridWorld.all_points"]}
{"id": "C85", "title": "Initial safe sets given as indices or with the wrong length", "statement": "The initial set can be given as a boolean array, or as a list or array of indices, also negative ones. Without refinement the indices do exactly what the boolean array of these states does, in the constructor and in every update_safe_set; an index that does not exist is an IndexError in the constructor. With refinement (adaptive, max_refinement > 1) a list of indices works only if no state needs refinement; as soon as some state is neither certified nor safe at the start the call raises TypeError and changes nothing; an array of indices is not the same as its boolean array: it can raise IndexError or lose states. If a boolean array of another length is assigned later, update_safe_set raises IndexError: with can_shrink nothing changes; without it (and without refinement) the object is left with the safe set and level of the same call without initial set.", "quantifier": "every grid, values, indices, certificate, batch size and order of equal values", "why_tests_cant": "The tests use one list of indices each, without refinement; the statement compares two ways of giving the set for all calls and shows what a failed call leaves behind.", "anchors": ["safe_learning/lyapunov.py:Lyapunov.__init__", "safe_learning/lyapunov.py:Lyapunov.update_safe_set"]}
{"id": "C86", "title": "The example systems obey the laws of mechanics, the cart only with a pole of length 1", "statement": "InvertedPendulum.ode gives the acceleration of a point mass on a rod in the gravity 9.81 with motor torque and friction: its energy changes by exactly the motor's power minus the friction loss. CartPole.ode satisfies both equations of motion of a cart with a point mass on a rod if the length is 1. For other lengths the angular acceleration is right, but the gravity and friction terms of the cart's acceleration are too large by the factor of the length, so that energy is created or lost without any force; linearize() nevertheless uses the derivatives of the right equations for every length. VanDerPol.ode is the Van der Pol oscillator in reverse time.", "quantifier": "every mass, length, friction, damping, state, action and solution curve", "why_tests_cant": "The tests do not look at the example systems; energy balance is a statement about derivatives along all solutions.", "anchors": ["examples/utilities.py:InvertedPendulum.ode", "examples/utilities.py:CartPole.ode", "examples/utilities.py:CartPole.linearize", "examples/utilities.py:VanDerPol.ode"]}
{"id": "C87", "title": "One get_safe_sample call with the wrong number of columns makes the object unusable", "statement": "The feed dictionary is shared by all evaluations and keeps the array of a failed call. As long as all policies and all calls of get_safe_sample have the same number of action columns, update_values, update_safe_set and get_safe_sample can always evaluate. If the policy plus the perturbations of a call have another number of columns than the perturbations of the first call (for example a single column of perturbations for several actions, already at the first call), the call is a ValueError, and from then on update_values, update_safe_set and get_safe_sample with perturbations raise and change nothing, whatever attributes, variables and data are assigned; values and safe set stay frozen. Only get_safe_sample with explicit actions, for one-dimensional states and actions, repairs this. So it is not true that a call that raised leaves a usable object behind.", "quantifier": "every program of assignments, changes of variables and data and calls, of any length; every policy, number of columns, grid and proposals", "why_tests_cant": "A statement about everything that can happen after a failed call; the tests make no call after an exception.", "anchors": ["safe_learning/lyapunov.py:get_safe_sample", "safe_learning/lyapunov.py:Lyapunov.update_values", "safe_learning/lyapunov.py:Lyapunov.update_safe_set", "safe_learning/utilities.py:get_feed_dict"]}
{"id": "C88", "title": "compute_trajectory keeps its graph for the whole process", "statement": "The graph of the first call for a pair (dynamics, policy) is reused for ever, and the feed dictionary of a graph is shared by all evaluations. If every pair is used in one TensorFlow graph and with one state dimension, every call returns exactly the trajectory of the current variables, whatever other calls and evaluations happen in between, and the evaluations of other objects are not disturbed. A call with a state of another dimension is a ValueError, and after it every evaluation of any object in this graph fails until compute_trajectory is called for the same pair with the first dimension. A call of a stored pair in a session of another graph is a TypeError, and after it every evaluation in that graph fails for ever; other graphs are not affected. With num_steps = 1 nothing is evaluated, and any initial state is returned.", "quantifier": "every program of calls, evaluations, assignments and changes of session, of any length; all dynamics, policies, states and numbers of steps", "why_tests_cant": "A statement about all sequences of calls in one process; each test makes one call in a new graph.", "anchors": ["safe_learning/utilities.py:compute_trajectory", "safe_learning/utilities.py:get_storage", "safe_learning/utilities.py:set_storage", "safe_learning/utilities.py:get_feed_dict"]}
{"id": "C89", "title": "GP error bounds contain every function of norm at most beta", "statement": "Let Kdiag(x) be at least K(x,x). If the measurements are exact and the unknown function minus the mean function has at most norm beta in the function space of the kernel (beta^2 k(x,z) - h(x) h(z) is positive semi-definite), then every interval mean +- error of GaussianProcess contains the true value, for every data set, so also after every further measurement. With measurement errors the same holds if the squared norm plus the sum of the squared errors divided by the noise variance of the model is at most beta^2. Sums of kernel functions have such a norm. Without a bound on the norm, or with errors that are not paid for, the true value can lie outside.", "quantifier": "every positive semi-definite kernel, mean function, data set, scale, triangular factor, function, measurement error, beta >= 0 and set of points, over every real closed field", "why_tests_cant": "The guarantee speaks about all functions of a space and all data sets; a test can only check one function at a few points.", "anchors": ["safe_learning/functions.py:GaussianProcess.build_evaluation", "safe_learning/functions.py:GPRCached.build_predict", "safe_learning/functions.py:GaussianProcess.add_data_point"]}
{"id": "C90", "title": "Safe learning with Gaussian processes keeps the true system in the level set", "statement": "Let the dynamics be a FunctionStack of GaussianProcess models, and let the unknown system satisfy in each coordinate the premise of C89 for the data that the program has at any time: squared norm of the system minus the mean function, plus the sum of the squared measurement errors divided by the noise variance, at most beta^2. Then the bounds contain the successor of every state with every action, and in every program that adds measurements, updates the safe set and samples, every sample of get_safe_sample is a safe state with an action whose true successor has a value below the level of the last update, or with the policy's action; if the value is below the level by the margin lv*tau the policy keeps the true system in the level set for ever, and the policy's action decreases the true value outside of the initial set. It is not enough that the models are right about the closed loop.", "quantifier": "every grid, Lyapunov function and policy with the given constants, true system, positive semi-definite kernels, data sets, program, perturbations and number of steps", "why_tests_cant": "The guarantee is about an unknown system and all data sets that can be measured on it; a test knows one system and one data set.", "anchors": ["safe_learning/lyapunov.py:get_safe_sample", "safe_learning/lyapunov.py:Lyapunov.update_safe_set", "safe_learning/functions.py:FunctionStack.build_evaluation", "safe_learning/functions.py:GaussianProcess.build_evaluation", "safe_learning/functions.py:GaussianProcess.add_data_point"]}
{"id": "C91", "title": "The kernels of the examples give usable Gaussian processes", "statement": "Every kernel built from Linear, RBF and Matern32 with + and *, with non-negative variances and positive lengthscales, is symmetric and positive semi-definite, and Kdiag(x) is at least K(x,x). So for positive noise, a non-zero scale and every data set the cache of GPRCached is computed, the predicted variance is between Kdiag(x) - K(x,x) >= 0 and Kdiag(x), the error bound of GaussianProcess is beta times its root, and C89 and C90 apply. Kdiag is not exactly the diagonal of K: the small number that gpflow adds under the root of Matern32 makes K(x,x) smaller than Kdiag(x) everywhere, and without it they are equal.", "quantifier": "every such kernel (any nesting, active columns, variances and lengthscales), data set, point, mean function, scale, triangular factor, beta >= 0 and added number >= 0", "why_tests_cant": "Positive semi-definiteness is about all finite sets of points; that of Matern32 and of products cannot be seen from examples.", "anchors": ["safe_learning/functions.py:GPRCached.compute_cache", "safe_learning/functions.py:GPRCached.build_predict", "safe_learning/functions.py:GaussianProcess.build_evaluation", "examples/inverted_pendulum.ipynb", "examples/1d_example.ipynb", "examples/adaptive_safety_verification.ipynb", "examples/1d_region_of_attraction_estimate.ipynb"]}
{"id": "C92", "title": "The prior variances of the pendulum examples cover linear systems with up to four columns", "statement": "The examples set the variances of the Linear kernel to the squared differences of the true and the wrong linearization, but at least a small number. With n states and actions together, the intervals of GaussianProcess contain the true linear system plus any remainder of norm at most B in the second part of the kernel, at every point and for every data set, if n + B^2 + (sum of squared measurement errors)/(noise variance) <= beta^2. So with the default beta = 2 and exact measurements they contain the true linear system for up to four states and actions, whatever second kernel is added. With more than beta^2 columns that all differ by at least the floor, the model without data is wrong at some point.", "quantifier": "all true and wrong linear systems, floors, second kernels, remainders, data sets, measurement errors, noise variances, scales, factors, beta and points", "why_tests_cant": "The examples check no interval; that four columns are covered and five are not is a statement about all systems and all points.", "anchors": ["safe_learning/functions.py:GaussianProcess.build_evaluation", "safe_learning/functions.py:GaussianProcess.__init__", "examples/inverted_pendulum.ipynb", "examples/adaptive_safety_verification.ipynb"]}
{"id": "C93", "title": "Random samples of a grid are states of the grid", "statement": "sample_continuous returns states in the box of the limits, never on an upper side; every other state of the box can be drawn, and the share of each axis below the sample is the uniform random number. sample_discrete returns num_samples grid states, each of them possible; without replacement they are different, num_samples = nindex gives every grid state exactly once, and more samples are a ValueError, as is a negative number.", "quantifier": "every valid grid, number of samples and outcome of the random choice", "why_tests_cant": "A test sees a few draws; the statement is about all of them.", "anchors": ["safe_learning/functions.py:GridWorld.sample_continuous", "safe_learning/functions.py:GridWorld.sample_discrete"]}
{"id": "C94", "title": "Triangulations as Lyapunov functions", "statement": "The values of a triangulated function at two points differ by at most the largest slope, in the direction from one to the other, that gradient() reports on the line between them, so the largest absolute entry of the gradients there is a Lipschitz constant for the 1-norm distance. With such a constant the decrease condition at a grid state guarantees the decrease of the Lyapunov function (the triangulation or its negative) at all states within tau, and v_decrease_bound covers all successors within the error bounds. With one axis the constant holds on the whole line, outside the limits too; the function of the one-dimensional notebooks is |x| everywhere and their constant 1 is right. The constant of inverted_pendulum.ipynb, the largest gradient entry at the state itself (or at the mean successor), is not enough: the condition can hold at a grid state although the Lyapunov function increases from a state within tau, and some successor within the error bounds can exceed the bound.", "quantifier": "all dimensions, triangulations whose simplices meet in common faces, values, points two eps away from the border (one axis: all points), closed loops, tau and error bounds", "why_tests_cant": "Lipschitz constants are statements about all pairs of points; a test samples gradients at states and never sees the kinks between them.", "anchors": ["safe_learning/functions.py:Triangulation", "safe_learning/lyapunov.py:Lyapunov.threshold", "safe_learning/lyapunov.py:Lyapunov.v_decrease_bound", "safe_learning/lyapunov.py:Lyapunov.lipschitz_lyapunov", "examples/inverted_pendulum.ipynb", "examples/1d_example.ipynb", "examples/1d_region_of_attraction_estimate.ipynb"]}
{"id": "C95", "title": "The polynomial Lyapunov candidate of the examples", "statement": "For a symmetric matrix lyapunov_sos_derivative returns half the gradient of lyapunov_sos, not the gradient; so the plotted rate is half the derivative of the candidate along the solutions of the pendulum's differential equation and has its sign. The argument norm is only tested for None, its contents are ignored. The matrix of the example is not positive semi-definite, so it is no sum-of-squares certificate; nevertheless the polynomial is at least (a^2 + b^2) / 5 at every state. The computed level is the largest one, among the values of the grid, below which every grid state except the smallest has a negative rate; states whose value equals the level may have a positive rate although the region is drawn with <=.", "quantifier": "all states, symmetric matrices, pendulum parameters and normalizations; all grids, orders of sorting and rates", "why_tests_cant": "Gradients, definiteness and derivatives along solutions are statements about all states; the examples only draw them on a grid.", "anchors": ["examples/lyapunov_function_learning.ipynb"]}
{"id": "C96", "title": "Labels and objective in the training of Lyapunov networks", "statement": "Over any number of rounds and with any parameters in every round, roa_estimate consists exactly of the grid states that were in one of the safe sets so far, or that in an earlier round were outside of the level set, inside of the enlarged one, and in the level set after the simulation; labels are never removed and the initial set is always labelled. target_set lists the labelled states and those of the enlarged level set in grid order and target_labels has the right label for each of them. Labels are right about every set that contains the predecessors of its states if the level sets and safe states are in it; if every round meets the premises of C22, every labelled state reaches the initial set, unless its simulation ended in the layer {c - lv*tau <= V <= c} or it was safe with a value above the level. With tau = 0, as in the example, this is false for safe states and for labels even if all constants are right. The objective is non-negative, and zero exactly if on the batch the labelled states are in the level set with values that do not increase, and no other state is strictly inside; this does not mean that they can be verified.", "quantifier": "all grids, closed loops, networks, initial sets, factors, horizons, numbers of rounds and parameters after every round; all batches", "why_tests_cant": "The labels accumulate over rounds with parameters that come out of stochastic training; a test sees one sequence.", "anchors": ["examples/lyapunov_function_learning.ipynb", "safe_learning/lyapunov.py:Lyapunov.update_safe_set", "safe_learning/lyapunov.py:Lyapunov.update_values", "examples/utilities.py:balanced_class_weights"]}
{"id": "C97", "title": "Objectives of the actor-critic examples", "statement": "For square Q, R and any policy, dynamics and value function that work row by row, the critic's objective is the scaled mean of |V(x) - (r(x,u) + gamma V(x'))| over the batch: never negative, zero exactly if the Bellman equation holds on the batch, and its size bounds the error at every state of the batch. If it is at most e for every state of an invariant set on which V is bounded, V is the return of the policy on that set up to e*r_max/(1-gamma). r_max is the largest size of a reward on the box [-1,1] if Q and R have no negative entries (scaled returns then lie in [-1,0]); with negative entries it can be more than ten times too small, even for positive definite Q. If the critic is exact and the actor's objective does not grow at any single state of an invariant set, the new policy is at least as good there; a smaller mean over the batch alone can belong to a policy that is worse at every state of the batch. A policy network without biases maps the zero state to zero and a bounded last activation keeps actions within the limits; with biases the value of the zero state can be anything. Because the target is held constant, gradient steps for the critic can increase its objective at every step and every learning rate although parameters with objective zero exist. The objective for given values is zero exactly if the network has these values on the batch.", "quantifier": "all dimensions, matrices, policies, dynamics, value functions, batches, discount factors, networks; all learning rates and numbers of steps", "why_tests_cant": "Training curves show one random run; what a small objective means for returns, and whether updates decrease it, are statements about all states and parameters.", "anchors": ["examples/reinforcement_learning_pendulum.ipynb", "examples/reinforcement_learning_cartpole.ipynb", "safe_learning/functions.py:QuadraticFunction", "safe_learning/functions.py:NeuralNetwork.build_evaluation"]}
{"id": "C98", "title": "What the pictures of the examples show", "statement": "On a two-dimensional GridWorld the images of values (imshow of the transposed array with origin='lower', and the flat branch of plot_triangulation) contain one rectangle per grid state, coloured by the value of that state, which contains the position of this state and of no other one; so the picture determines the values. A picture of a Saturation of a triangulated policy shows its parameters, and these are the applied actions exactly if none is outside of the limits. The surface plots pair the meshgrid of the axes (default indexing) with the untransposed values: they raise ValueError for different numbers of points per axis, and otherwise show the graph of the function exactly if the function is symmetric under exchanging the grid indices. The slices of the cart-pole grid are exactly the grid states with the two given coordinates, in the order the images assume. In the comparison of two regions of attraction red means in both, green in exactly one, provided that both kinds of extreme occur; the legend (green old, red new) is right exactly if the new region is part of the old one, and for disjoint regions all states of either are red. The subsampled initial states are the grid states whose two indices are multiples of n0 // N_traj, at least N_traj rows (15 x 15 for N_traj=13 on the 101 x 101 grid), and ValueError for fewer than N_traj points.", "quantifier": "all two-dimensional (four-dimensional for slices) grids, values, scalings, pairs of regions, numbers of trajectories", "why_tests_cant": "Nobody tests a picture; whether it shows each value at its own state is a statement about all grids, and a transposed picture of a symmetric example looks right.", "anchors": ["examples/plotting.py:136-189", "examples/reinforcement_learning_pendulum.ipynb", "examples/reinforcement_learning_cartpole.ipynb", "examples/lyapunov_function_learning.ipynb", "examples/inverted_pendulum.ipynb", "examples/basic_dynamic_programming.ipynb"]}
{"id": "C99", "title": "Picture of the required refinement", "statement": "The number N(x) that the adaptive example draws (the rounded-up quotient of threshold and change of the Lyapunov function) is, where the threshold is negative and the function decreases, the least N >= 1 for which the decrease reaches the threshold of tau/N, and the same as what update_safe_set computes with safety factor 1. With the strict comparison of the certificate N suffices exactly if the quotient is not an integer, and N+1 always suffices. Where the function does not decrease -1 is drawn and no refinement passes. With a zero threshold 0 is drawn for decrease and increase alike.", "quantifier": "all Lyapunov functions, dynamics, constants, tau, states", "why_tests_cant": "The picture is judged by eye; minimality quantifies over all refinements and all states.", "anchors": ["examples/adaptive_safety_verification.ipynb", "safe_learning/lyapunov.py:Lyapunov.threshold", "safe_learning/lyapunov.py:Lyapunov.update_safe_set"]}
{"id": "C100", "title": "Safe state-action pairs of the 1d example", "statement": "get_safe_sets returns two boolean arrays with one row per grid state and one column per action. Rows of states outside of the safe set are False. In the row of a safe state an entry of the first array is True exactly if the Lyapunov function at the predicted mean plus lipschitz constant times the error bound is below c_max (and, for positive=False, the grid state nearest to the mean is safe), an entry of the second exactly if the decrease test of the certificate holds for this pair. A pair marked in both arrays leads, for every dynamics within the predicted error and every Lyapunov function with that constant, to a lower value below c_max. The two arrays are independent: neither mark implies the other.", "quantifier": "all grids, safe sets, action grids, models with error bounds, Lyapunov functions and constants", "why_tests_cant": "The example looks at one grid and one model; the meaning of a mark is about all functions consistent with the model.", "anchors": ["examples/1d_example.ipynb", "safe_learning/lyapunov.py:Lyapunov.v_decrease_bound", "safe_learning/lyapunov.py:Lyapunov.threshold"]}
{"id": "C101", "title": "Mountain car example", "statement": "Values that solve the Bellman equation of a policy stay between the least and the largest reward divided by 1 - gamma, up to an explicit slack that vanishes if the interpolation weights at the successors are not negative; so the values of the mountain car lie between 0 and 1 and are at least 1 - gamma in rewarded grid states. The discounted rewards of n steps are at most 1 - gamma^n, with equality exactly if all n positions exceed 0.6, and zero exactly if none does. The drawn trajectory has the states of the car up to the first arrival at a position of at least 0.6 and repeats that state; arrival at exactly 0.6 is drawn but not rewarded. The states called terminal are not: from some rewarded states of the domain every action leaves the goal. The second difference of the positions is the push times 0.001 less a multiple of the slope of the track sin(3x). At rest with cos(3x) > 0.4 no allowed action moves the car uphill, and the untrained policy leaves it in the valley without reward. The message 'converged after n iterations' names the first iteration in which no value and no action changed by more than 0.1.", "quantifier": "all grids, policies, discount factors, start states, lengths, sequences of parameters", "why_tests_cant": "The notebook shows one run; the bounds are about all policies and grids.", "anchors": ["examples/basic_dynamic_programming.ipynb", "safe_learning/reinforcement_learning.py:PolicyIteration.future_values", "safe_learning/reinforcement_learning.py:PolicyIteration.optimize_value_function"]}
{"id": "C102", "title": "How wrong arguments are reported", "statement": "PiecewiseConstant accepts exactly one row of values per grid state and raises ValueError otherwise. A decorated function (concatenate_inputs) called with several arguments of which at least one is a tensor raises ValueError unless all have two axes and the same number of rows. compute_trajectory and the closed-loop response raise ValueError for a next state, action or initial state of a wrong width; batchify of an empty list raises IndexError; get_safe_sample with a negative number of samples raises ValueError. Copying the parameters of a sum, product or saturation from a function of another kind raises AttributeError and changes no parameter, and what the copy of a sum returns raises TypeError when it is evaluated. lqr with singular R and dlqr with singular B'PB + R raise the error of the linear solver; sample_gp_function raises ValueError for more than one output. The cells of the 1d example that unpack mean and bound raise ValueError for dynamics without error bounds, and the level of the polynomial candidate fails (IndexError) only on an empty grid. The matrix of the polynomial candidate must be 9 by 9 (ValueError otherwise), and its rate of change for a pendulum without normalization raises TypeError. Not reported: for dynamics that return a single number for a state with several entries, compute_trajectory fills all entries of the next state with this number. A triangulation needs one row of values per grid state (ValueError); linearly_spaced_combinations with several numbers of samples, but not one per variable, raises ValueError; a starting node of get_lyapunov_region with too many indices raises IndexError, and so does one with an index outside -n ... n-1 for an axis with n points (negative indices count from the end); once get_safe_sample has stored state-action pairs of a wrong width, calls with perturbations raise ValueError and leave the certificate unchanged.", "quantifier": "all grids, arrays, widths, functions, stores, matrices and Gaussian processes", "why_tests_cant": "Tests try single wrong calls; that every wrong call of a kind is rejected, with this exception and without side effect, is about all of them.", "anchors": ["safe_learning/functions.py:PiecewiseConstant.__init__", "safe_learning/utilities.py:concatenate_inputs", "safe_learning/utilities.py:compute_trajectory", "examples/utilities.py:compute_closedloop_response", "safe_learning/utilities.py:batchify", "safe_learning/lyapunov.py:get_safe_sample", "safe_learning/functions.py:AddedFunction.copy_parameters", "safe_learning/functions.py:Saturation.copy_parameters", "safe_learning/utilities.py:lqr", "safe_learning/utilities.py:dlqr", "safe_learning/functions.py:sample_gp_function"]}
{"id": "C103", "title": "Radial basis function networks", "statement": "As written, the constructor of RBFNetwork always raises AttributeError (no line sets _hidden_units). With this attribute set to the number of grid states or -1 it succeeds, with any other number it raises ValueError. Then the network is the sum of its weights times Gaussian bells around the grid states, weight k belonging to index_to_state(k). Its size is at most the sum of the absolute weights, decays as exp(-r^2/(2 sigma^2)) with the distance r from the grid states, and its Lipschitz constant is at most this sum times exp(-1/2)/sigma. The default sigma is the finest spacing of the grid, so that a bell has at most the height exp(-1/2) at other grid states. A wrong number of weights or of columns raises ValueError, except a single column, which is silently used for all axes.", "quantifier": "all grids, widths, weights and states", "why_tests_cant": "Tests evaluate a network at a few states with one set of weights; the bounds are about all of them, and no test creates a network at all.", "anchors": ["examples/utilities.py:RBFNetwork"]}
{"id": "C104", "title": "Picture of a Lyapunov function in one dimension", "statement": "In plot_lyapunov_1d the red points are the graph of the Lyapunov values over exactly the safe grid states, the blue ones over the others. If the error bounds hold, the black curves (true next state, true change of the Lyapunov function) run inside of the bands. The labels say safe: dV <= L tau, unsafe: dV > L tau; after an update without refinement the upper edge of the band is below the threshold line at every red state outside of the initial set, and for every blue state some state of at most its value has its edge not below the line; but a red initial state may be above and a blue state below the line. The helper lines are at x and -x for a safe state x of the largest value; they enclose the safe states if larger values belong to states further from 0, not in general. Bands and black curves keep the functions of the first call for the object, whatever its attributes are later.", "quantifier": "all one-dimensional grids, Lyapunov functions, models with error bounds, true dynamics, safe sets", "why_tests_cant": "A picture is looked at once; what its colours and lines mean is about all functions and safe sets.", "anchors": ["examples/plotting.py:plot_lyapunov_1d", "safe_learning/lyapunov.py:Lyapunov.v_decrease_confidence", "safe_learning/lyapunov.py:Lyapunov.threshold"]}
{"id": "C105", "title": "Kind of number passed as tau", "statement": "The local refinement divides tau by an int32 tensor, which converts tau to an integer first. With adaptive = True, a tau that is a Python float (as documented) or a float tensor makes every update_safe_set end in a TypeError; a whole number (Python int, numpy) is divided exactly; a numpy number is truncated, to 0 in the adaptive example. Then a safe state outside of the initial set with recorded refinement N still satisfies dV < 0 and dV <= threshold(tau / N), strictly if the safety factor is above 1, but not strictly in general, and the safe set contains the one that exact quotients would give, possibly properly. Without adaptive = True the kind of number has no effect.", "quantifier": "all setups, kinds of numbers, safety factors, batch sizes, max_refinement", "why_tests_cant": "The tests never update an adaptive object, and the truncation shows only at states of equality.", "anchors": ["safe_learning/lyapunov.py:Lyapunov.update_safe_set", "safe_learning/lyapunov.py:Lyapunov.__init__", "safe_learning/lyapunov.py:Lyapunov.threshold"]}
{"id": "C106", "title": "The safe set of adaptive objects", "statement": "With adaptive = True, a numpy tau below 1, positive constants and max_refinement m > 1 (safety factor at most m), and if initial states without known decrease have smaller values than all states outside of the initial set, update_safe_set marks exactly the initial states and the longest prefix of the value order in which every other state satisfies dV <= max(safety_factor, 1) threshold(tau / m): up to equality the safe set that the object without refinement has for tau / m, for every batch size and growing with m. For any checks, refinement never loses a state of the safe set without it. Not in general: for a whole-number tau, allowing more refinement can lose states, and initial states without known decrease that come later make the result depend on the batch size; and what the safe set guarantees without refinement is lost: with right Lipschitz constants and a tau that fits the grid, a state far below the level can leave the level set, and even the grid, in one step.", "quantifier": "all setups, value orders, batch sizes, max_refinement, safety factors", "why_tests_cant": "The tests never update an adaptive object; the equivalence with a finer tau is about all states and batch sizes.", "anchors": ["safe_learning/lyapunov.py:Lyapunov.update_safe_set"]}
{"id": "C107", "title": "Retraining the Lyapunov function between updates", "statement": "If variables change between calls (a policy or a value function is trained, as in the inverted pendulum example), and update_values is called after the last change and before update_safe_set, then under the premises of C22 for the functions as they are now, their level set {V < c_max - lv*tau} is invariant for the policy as it is now. update_safe_set alone does not recompute the values: the level is then a value of the Lyapunov function at construction, the states below a safe state in the old order are safe, and safe states outside of the initial set decrease the current function, but the level set of the current function can be left in one step although all other premises hold.", "quantifier": "every program without assignments of attributes, every change of variables and data, all grids", "why_tests_cant": "The tests evaluate one Lyapunov function with fixed parameters; the examples call update_safe_set with and without update_values.", "anchors": ["safe_learning/lyapunov.py:Lyapunov.update_values", "safe_learning/lyapunov.py:Lyapunov.update_safe_set", "examples/inverted_pendulum.ipynb"]}
{"id": "C108", "title": "Numbers recorded in the adaptive example", "statement": "The loop of the adaptive example updates the safe set with can_shrink=False after every batch of measurements. The i-th recorded number of measurements is i times the number per update; the i-th recorded fraction is the share of grid states that are safe after i updates, between 0 and 1, and 1 exactly if all are safe; the fractions never decrease, for any certificates, refinement and batch size. If the smallest state is in the initial set and some state is never found safe, the recorded safe levels do not decrease either; if everything is found safe, the level can drop although the safe set has grown.", "quantifier": "all grids, values, earlier updates without a change of the values, certificates, refinements and batch sizes", "why_tests_cant": "The example is not tested, and what is true of every later update is about all executions of the loop.", "anchors": ["examples/adaptive_safety_verification.ipynb", "safe_learning/lyapunov.py:Lyapunov.update_safe_set"]}
{"id": "C109", "title": "Derivatives of triangulations computed by TensorFlow", "statement": "After any assignments of vertex values and of project, tf.gradients of an evaluated Triangulation with respect to the points returns, for every point, the gradient that gradient returns, weighted with grad_ys; with projection, coordinates outside the limits get zero (the limits themselves count as inside). Within one simplex it gives the exact change of the outputs, so it is the derivative wherever one simplex surrounds the point and, with projection, no coordinate is at a limit. With respect to the vertex values the returned index-row pairs, repeated indices added, give the weighted sum of the outputs for every choice of the values exactly. On faces between simplices there may be no derivative; the slope in the simplex the point is assigned to is returned, e.g. -1 at the peak of a hat.", "quantifier": "all grids, Delaunay triangulations that cover the unit cell, values, histories of assignments, points and output weights", "why_tests_cant": "The tests compare a few sampled points of one triangulation and leave out points outside the limits; that the numbers are derivatives is about all nearby points.", "anchors": ["safe_learning/functions.py:Triangulation.build_evaluation", "safe_learning/functions.py:_Triangulation.gradient", "safe_learning/tests/test_functions.py:TestTriangulation"]}
{"id": "C110", "title": "Variables and parameters of function objects", "statement": "In every program that names functions without slashes and dots and constructs networks and saturations outside of tf.variable_scope (names may coincide, name scopes may be open, and anything may be evaluated at any time and repeatedly): evaluating a function never fails for want of a variable, all its evaluations use the same variables, and afterwards parameters lists exactly these in the same order, for sums and products those of both functions; different networks and triangulations never share a variable; a network has no parameters before its first evaluation. The exception are saturations of networks: evaluating one creates variables that the network does not use and that no function lists, so they are neither trained nor copied. Within a tf.variable_scope parameters misses the variables of a network, or another function lists them; with dots in names a triangulation may read the values of another one.", "quantifier": "all programs, i.e. sequences of constructions, evaluations, scopes and other operations, and all names", "why_tests_cant": "Tests create one or two functions in a fresh graph; name clashes depend on everything constructed before.", "anchors": ["safe_learning/functions.py:Function.__init__", "safe_learning/functions.py:Function.parameters", "safe_learning/functions.py:Function.__call__", "safe_learning/functions.py:AddedFunction.parameters", "safe_learning/functions.py:Saturation.scope_name", "safe_learning/functions.py:Saturation.build_evaluation", "safe_learning/functions.py:Triangulation.__init__", "safe_learning/utilities.py:use_parent_scope"]}
{"id": "C111", "title": "Derivatives of Lyapunov networks", "statement": "For every architecture that LyapunovNetwork accepts, all weights and all points, tf.gradients of the values with respect to the points and to every variable of the network are the exact derivatives for activations whose derivatives are: moving points and variables together in any directions changes any weighted sum of the values at exactly the rate that they predict, and the derivative at a point does not depend on the other points. The constant L_v of the example, the 1-norm of the derivative with respect to the points, bounds by how much the values differ at two points if it is bounded on the whole segment between them. Its value at a point alone does not bound the change nearby: at the origin it is zero for every network with positive eps and activations that vanish only at zero, yet the value at every other point differs from that at the origin.", "quantifier": "all architectures, weights, activations with their derivatives, points, directions and weights of the sum", "why_tests_cant": "Tests compare gradients with finite differences at a few points.", "anchors": ["examples/utilities.py:LyapunovNetwork.build_evaluation", "examples/lyapunov_function_learning.ipynb"]}
{"id": "C112", "title": "Derivatives of neural networks", "statement": "For every NeuralNetwork, all weights and all points at which the derivatives of the activations are right, tf.gradients with respect to the points and to all variables, kernels and biases, has the shapes of these and is the exact derivative: moving points and variables together in any directions changes every weighted sum of the outputs at the rate that it predicts, including the output scale and layers without bias or activation. For the rectified activations of the examples this covers all points at which no unit has input zero; where a unit has input zero the number returned is not a derivative, since there is none.", "quantifier": "all architectures, weights, activations, points, directions and weights of the sum", "why_tests_cant": "Tests compare gradients with finite differences at a few points.", "anchors": ["safe_learning/functions.py:NeuralNetwork.build_evaluation", "examples/inverted_pendulum.ipynb", "examples/reinforcement_learning_pendulum.ipynb"]}
{"id": "C113", "title": "Policy optimization by gradient descent", "statement": "For losses that are weighted sums of future_values, policies that are neural networks or triangulations, and states whose next states each have one simplex of the value function around them, the gradients that GradientDescentOptimizer computes through policy, rewards, dynamics and value function are the exact derivatives of the loss with respect to all policy parameters. Therefore, unless all of them vanish, there is a positive number such that one step of adapt_policy with any smaller learning rate strictly decreases the loss; for triangulations the entries for one vertex that several states contribute are added. If the next state is on a face of a simplex this fails: in a one-dimensional example the policy is optimal and every step with a learning rate below 2 increases the loss.", "quantifier": "all value functions and policies on grids, networks, dynamics and rewards with derivatives, discount factors, weights, states and parameters", "why_tests_cant": "test_rl runs fifty steps on one linear system and compares the result with a tolerance of 0.1.", "anchors": ["safe_learning/reinforcement_learning.py:PolicyIteration.future_values", "safe_learning/tests/test_rl.py", "examples/inverted_pendulum.ipynb", "examples/basic_dynamic_programming.ipynb"]}
{"id": "C114", "title": "Gradient steps in the training of Lyapunov networks", "statement": "For every Lyapunov network with differentiable activations, every batch with labels and class weights, and every safe_level and lagrange_multiplier such that no value is exactly at safe_level and no labelled value stays exactly the same, the gradients that training_update computes are the exact derivatives, with respect to all variables, of the objective in which the normalization 1/(value + eps) is kept at its present value. Therefore, unless all of them vanish, one training_update with any small enough learning rate strictly decreases that function. If the values of all labelled states decrease along the dynamics the gradients are those of the objective itself. In general they are not, because of tf.stop_gradient: there is a network and a batch of two states on which every small step strictly increases the objective that the example prints. In the optional pre-training the gradients are those of the mean absolute distance from the given values if no value is hit exactly, and small steps decrease this distance.", "quantifier": "all architectures, weights, activations with their derivatives, batches, labels, class weights, levels, multipliers and directions", "why_tests_cant": "Whether a step decreases an objective for all small learning rates is a statement about limits; a test runs a few steps with one rate.", "anchors": ["examples/utilities.py:LyapunovNetwork.build_evaluation", "examples/lyapunov_function_learning.ipynb"]}
{"id": "C115", "title": "Gradient steps of the actor-critic examples", "statement": "For policies and value functions that are neural networks, square Q and R, and dynamics whose derivative with respect to the actions is right, at all batches on which no rectified unit has input zero: policy_update follows the exact derivatives of the actor's objective with respect to all policy parameters, through rewards, dynamics and value network; so unless they all vanish, every step with a small enough learning rate strictly decreases this objective. value_update follows the exact derivatives of the critic's objective with the target kept, provided that no value equals its target, so small steps decrease the mean distance from the present targets (not always the Bellman error, see C97). Training with given values decreases the mean distance from these in the same way.", "quantifier": "all architectures, weights, activations, dimensions, matrices, dynamics with derivatives, discount factors, scalings, batches and directions", "why_tests_cant": "A test sees a few noisy steps with one learning rate.", "anchors": ["safe_learning/functions.py:NeuralNetwork.build_evaluation", "safe_learning/functions.py:QuadraticFunction.build_evaluation", "examples/reinforcement_learning_pendulum.ipynb", "examples/reinforcement_learning_cartpole.ipynb"]}
{"id": "C116", "title": "Derivatives of the example systems", "statement": "What TensorFlow computes for the derivative of InvertedPendulum and CartPole (all ten Euler steps, with or without normalisation) is the exact derivative of the next state with respect to state and action, at every state and action, with and without friction, for batches of any size. So the policies of the reinforcement learning examples, which are trained through these systems, follow the exact derivatives of the actor's objective: unless all of them vanish, every step with a small enough learning rate strictly decreases it.", "quantifier": "every mass, length, friction, step size, normalisation, state, action, weights and batch", "why_tests_cant": "The tests never differentiate the example systems; the statement is about derivatives at all points.", "anchors": ["examples/utilities.py:InvertedPendulum.build_evaluation", "examples/utilities.py:InvertedPendulum.ode", "examples/utilities.py:CartPole.build_evaluation", "examples/utilities.py:CartPole.ode", "examples/reinforcement_learning_pendulum.ipynb", "examples/reinforcement_learning_cartpole.ipynb"]}
{"id": "C117", "title": "Policy optimization through saturation", "statement": "A policy that is a saturated triangulation is optimized by gradient descent on the future values (as in the mountain car example). If no action before saturation is exactly a bound and the next states are inside simplices of the value function (off its limits if it projects), the gradients are the exact derivatives of the loss with respect to the policy's values, and unless all of them vanish every small enough step strictly decreases the loss; for the mountain car nothing else is needed. A value of the policy is kept by every step if in each state the action is beyond the bounds or does not depend on it; a policy that is beyond the bounds in all states never changes again, whatever the learning rate. Right at a bound the gradients are not those of the loss: a step then moves the policy beyond the bound without changing the loss, and from there it is stuck.", "quantifier": "every grid, triangulation, value function, dynamics, reward, bounds, weights, learning rate and list of states", "why_tests_cant": "No test optimizes a saturated policy, and the statement is about derivatives and all learning rates.", "anchors": ["safe_learning/functions.py:Saturation.build_evaluation", "safe_learning/functions.py:Triangulation.build_evaluation", "safe_learning/reinforcement_learning.py:PolicyIteration.future_values", "examples/basic_dynamic_programming.ipynb"]}
{"id": "C118", "title": "Safe policy update with the Lyapunov constraint", "statement": "For a neural network policy, dynamics with error bounds and a triangulated value function whose negative is the Lyapunov function, the loss of the safe policy update (future_values with lyapunov, as in the inverted pendulum example) is the weighted sum over the states of: reward, plus (discount factor + multiplier) times the value of the next state, minus the multiplier times the value of the state, minus multiplier * steepness at the next state * sum of the error bounds, minus multiplier * steepness at the state * (1 + a + b * policy.lipschitz()) * tau. Where next states are inside simplices of the value function and the policy, the dynamics, the error bounds and policy.lipschitz() are differentiable, the gradients used by the optimizer (with no gradient flowing through the steepness) are the exact derivatives of that loss, and unless all vanish every small enough step strictly decreases it. The constraint is added in all states, not only where it is relevant for safety as the notebook's comment says: even where it holds strictly before and after unconstrained steps, steps with it can make the unconstrained objective worse while unconstrained steps improve it.", "quantifier": "every grid, triangulation, network, dynamics, reward, multiplier, tau, weights, learning rate and list of states", "why_tests_cant": "No test calls future_values with lyapunov, and the statement is about derivatives and all learning rates.", "anchors": ["safe_learning/reinforcement_learning.py:PolicyIteration.future_values", "safe_learning/lyapunov.py:Lyapunov.v_decrease_bound", "safe_learning/lyapunov.py:Lyapunov.threshold", "safe_learning/functions.py:NeuralNetwork.lipschitz", "examples/inverted_pendulum.ipynb"]}
{"id": "C119", "title": "Gradient of the network's Lipschitz constant", "statement": "tf.gradients of NeuralNetwork.lipschitz() (singular values with a hand-made gradient, their maximum, the product over layers): if the decompositions that TensorFlow returns are right and the largest singular value of every weight matrix is positive and larger than the others, the result has the shapes of the parameters and is the exact derivative of lipschitz() in every direction, with zeros for the biases. For every matrix, also with equal singular values, the gradient of its factor is a subgradient of the largest singular value. Where the two largest singular values are equal the result is not a derivative, since there is none. As a consequence the steps of the safe policy update with this gradient strictly decrease its loss for small enough learning rates.", "quantifier": "every list of weights and biases, every direction, every decomposition into singular values", "why_tests_cant": "The only test checks that one Lipschitz constant is positive; the statement is about derivatives for all matrices and directions.", "anchors": ["safe_learning/functions.py:NeuralNetwork._svd", "safe_learning/functions.py:NeuralNetwork.lipschitz", "safe_learning/functions.py:NeuralNetwork._parameter_iter", "safe_learning/reinforcement_learning.py:PolicyIteration.future_values", "examples/inverted_pendulum.ipynb"]}
{"id": "C120", "title": "Value iteration in double precision", "statement": "PolicyIteration.value_iteration with a Triangulation on a resolved one-dimensional grid, computed in double precision: let B bound the initial values and let |reward| + (gamma + delta) B <= B, where delta = 2^-42 max(|lower|, |upper|) / spacing. If the triangulation projects, or the expected successors lie in the limits, the Bellman equation for the computed rewards and successors has exactly one exact solution, all values stay below B, and after n calls they are within gamma^n of their initial distance plus delta B / (1 - gamma) of it. They need not converge to the solution: there is a learner whose solution consists of double precision numbers and whose values never change although their last digit is wrong. discrete_policy_optimization, under the same bounds for every option, picks among the allowed options one whose exact value is within 2 delta B of the best (the first option if none is allowed); it need not be the best, as two options whose rewards differ in the last digit can have equal computed values.", "quantifier": "every resolved one-dimensional grid, learner, discount below 1, starting values and number of iterations", "why_tests_cant": "Tests run a few iterations with a tolerance; the accumulation of rounding errors over all runs is not tested.", "anchors": ["safe_learning/reinforcement_learning.py:PolicyIteration.value_iteration", "safe_learning/reinforcement_learning.py:PolicyIteration.discrete_policy_optimization", "safe_learning/reinforcement_learning.py:PolicyIteration.future_values", "safe_learning/functions.py:Triangulation.build_evaluation", "safe_learning/functions.py:Triangulation._get_hyperplanes"]}
{"id": "C121", "title": "Exploration with Gaussian processes becomes certain", "statement": "Let the dynamics be a FunctionStack of GaussianProcess models with fixed kernels and beta, and let a program measure every sample that get_safe_sample returns for one list of perturbations (in between it may update the values and the safe set and add other measurements). If the kernels have no part that is in Kdiag only, and n is such that the sum of beta * sqrt(noise / n) over the outputs is at most eps, then at most n * (number of grid points) * (number of perturbations + 1) samples have a reported error bound above eps, however long the program runs; such an n exists for every eps > 0. So in every longer exploration there is a call at which the model's mean is within eps (1-norm) of the true successor for every tested state and perturbed action that is certified, if the premise of C90 holds for the data. With a white noise kernel, for which Kdiag is larger than K, this is false: all samples can have a bound above eps.", "quantifier": "every grid, policy, positive semi-definite kernels, perturbations, limits, sub-sampling outcome, measured values and program length", "why_tests_cant": "Termination of an exploration concerns all data sets and arbitrarily long runs; a test sees one finite run.", "anchors": ["safe_learning/lyapunov.py:get_safe_sample", "safe_learning/functions.py:GaussianProcess.build_evaluation", "safe_learning/functions.py:GaussianProcess.add_data_point", "safe_learning/functions.py:FunctionStack.build_evaluation", "safe_learning/functions.py:FunctionStack.add_data_point"]}
{"id": "C122", "title": "Gaussian process bounds between the measurements", "statement": "For a FunctionStack of GaussianProcess models, whatever was measured, the reported error bounds at two points differ by at most the distance of the points that belongs to the kernels: the sum over the outputs of beta * sqrt(K(x,x) + K(z,z) - 2 K(x,z)), if Kdiag exceeds K by the same amount everywhere. If it does not exceed K, the bound near a point that was measured n times is at most the sum of beta * sqrt(noise / n) plus this distance. Hence, if the Lyapunov function decreases by more than lv (1 + lf) tau + 2 lv e at all grid states up to a level outside of the initial set, and near the policy's action in each of them there are measurements that give a bound e in this way, update_safe_set marks all states up to the level as safe; and every exploration as in C121 that is longer than the bound given there comes to a call before which update_safe_set would mark all states up to each level where this decrease holds with e = eps + delta and a certified pair of the tested states is within delta.", "quantifier": "every kernel, data set, pair of points, grid, Lyapunov function, true system satisfying the premise of C90, level and exploration", "why_tests_cant": "The statement bounds predictions at points that were never measured, for all kernels and data sets.", "anchors": ["safe_learning/functions.py:GaussianProcess.build_evaluation", "safe_learning/functions.py:GPRCached.build_predict", "safe_learning/functions.py:FunctionStack.build_evaluation", "safe_learning/lyapunov.py:Lyapunov.update_safe_set", "safe_learning/lyapunov.py:get_safe_sample"]}
{"id": "C123", "title": "Lipschitz continuous error bounds with the kernels of the examples", "statement": "For GaussianProcess models with kernels that are built from gpflow's Linear, RBF and Matern32 kernels by sums and products (as in all examples), the distance that belongs to the kernel (C122) of two points with coordinates up to M that differ by at most delta in every coordinate is at most L * delta, where L is computed from the parameters: L^2 is the sum of the variances for Linear, variance * (sum of 1 / lengthscale^2) for RBF, three times that for Matern32, the sum for sums, and 2 (h L'^2 + h' L^2) for products, with bounds h, h' on the kernels. So, whatever was measured, the error bounds that a FunctionStack reports change by at most the sum of beta * L * delta, if gpflow adds nothing under the root of euclid_dist or there are no products, and in general by at most a jump of the sum of beta * sqrt(excess) more, where the excess is computed from that number, variances and M, and vanishes with it. Near a point measured n times the bound is at most the sum of beta * (sqrt(noise / n) + L * delta + sqrt(excess)). If the Lyapunov function decreases sufficiently at all grid states up to a level outside of the initial set, and within delta of each of them, with the policy's action, there is a point that was measured n times, update_safe_set marks all states up to the level as safe. Without a bound on the coordinates there is no such L for products.", "quantifier": "every kernel expression with nonnegative variances and positive lengthscales, box, data set, pair of points, stack, grid, Lyapunov function and true system satisfying the premise of C90", "why_tests_cant": "The statement bounds predictions at points that were never measured, for all kernel expressions, parameters and data sets.", "anchors": ["safe_learning/functions.py:GaussianProcess.build_evaluation", "safe_learning/functions.py:GPRCached.build_predict", "safe_learning/functions.py:FunctionStack.build_evaluation", "safe_learning/lyapunov.py:Lyapunov.update_safe_set"]}
{"id": "C124", "title": "Lipschitz constant of the dynamics from the kernels", "statement": "For a GaussianProcess whose beta covers the true function and the errors of the measurements (premise of C90), the true function and the reported mean, each minus the mean function, vary between two points by at most beta * sqrt(K(x,x) + K(z,z) - 2 K(x,z)). So for a FunctionStack with kernels built from Linear, RBF and Matern32 by sums and products, and mean functions with Lipschitz constants, both the true dynamics and the means that the stack reports, whatever was measured, have, in a box, the Lipschitz constant: sum over the outputs of the constant of the mean function plus beta * L with the L of C123. With a policy with Lipschitz constant lp, this constant times (1 + lp) is a number for the closed loop as C90 requires of lipschitz_dynamics of Lyapunov: the guarantees need no further knowledge of the true system. Distances are sums over the coordinates.", "quantifier": "every kernel, data set, true function satisfying the premise of C90, pair of points, stack, box, grid and policy", "why_tests_cant": "The statement bounds a system that is unknown and predictions at points that were never measured, for all kernels and data sets.", "anchors": ["safe_learning/functions.py:GaussianProcess.build_evaluation", "safe_learning/functions.py:GPRCached.build_predict", "safe_learning/functions.py:FunctionStack.build_evaluation", "safe_learning/lyapunov.py:Lyapunov.__init__", "safe_learning/lyapunov.py:Lyapunov.lipschitz_dynamics"]}
