# Formal model of MushroomRL — design

Source under study: `/repo` (MushroomRL, Python, pinned commit), read as text only.
Model: Rocq/Coq 8.16.1, `rocq/theories/`, logical root `Verif`.

## Trusted base

* Coq's kernel (re-checked by `coqchk`).
* The axioms printed by `Print Assumptions`, listed for every theorem at the end of this
  document. All are axioms of Coq's standard library, used by its real numbers, by functional
  extensionality or by classical logic. This development adds none.
* That the Gallina definitions transcribe the Python code. Each definition cites the file and
  lines it transcribes and says what was simplified.
* The contracts of what is not modelled (linear algebra routines, ODE integrators, optimizers,
  random generators, torch autograd): they are arguments of the definitions, and what a theorem
  needs to know about them is a hypothesis of the theorem.

## Modelling conventions

* Model functions are Gallina functions. Python exceptions (IndexError, shape mismatch,
  TypeError, failed `assert`) are explicit results (`option`), and so is NaN where it matters.
* `while` loops and unbounded recursion become fuel-indexed functions. Theorems quantify over
  every amount of fuel, and termination theorems give the fuel that suffices.
* Random draws, environments, agents, regressors and uninitialised memory (`np.empty`) are
  universally quantified, so that a theorem holds for all of them.
* Floating point numbers are idealised: as real numbers `R` where arithmetic matters, as an
  arbitrary type where they are only moved around. Rounding and overflow are not modelled.
* numpy/torch aliasing is modelled where it is observable (in-place operations on views or on
  arrays the caller keeps): replay memory rewards, TRPO conjugate gradient, optimizers, dataset
  flatten, vector policies, DMP actions.
* Processes (`MultiprocessEnvironment`) are interleavings of an asynchronous transition system.
* If the faithful model violates a property of `properties.jsonl`, there is a theorem with the
  suffix `_refuted` giving a witness or the general failure, next to the strongest positive
  theorem that holds.

## File layout

For an area `X`: `XModel.v` (transcription), `XSpec.v` (independent specification),
`XProofs.v` (lemmas), `XProps.v` (theorems, examples, `Print Assumptions`). `Common.v`,
`Mat.v` and `EpisodeSpec.v` are shared vocabulary. `seeded/LOG.jsonl` records the mutation
tests.

## Properties: what is modelled and how it is proved

| id | title | status | files | method |
|----|----|----|----|----|
| C01 | Core.learn consumes exactly its step budget and fits on schedule | proved | CoreProps | the run loop as a fuel-indexed step function over an arbitrary environment and agent; invariants by induction on the steps |
| C02 | Every collected sample is fitted once, in order, and none is duplicated | proved | CoreProps | the run loop as a fuel-indexed step function over an arbitrary environment and agent; invariants by induction on the steps |
| C03 | Core.learn with an episode budget runs whole episodes and fits on whole episodes | proved | CoreProps | the run loop as a fuel-indexed step function over an arbitrary environment and agent; invariants by induction on the steps |
| C04 | Core.evaluate never trains and returns exactly what was asked | proved | CoreProps | the run loop as a fuel-indexed step function over an arbitrary environment and agent; invariants by induction on the steps |
| C05 | Transitions chain and the last flag means absorbing-or-horizon | proved | CoreProps | the run loop as a fuel-indexed step function over an arbitrary environment and agent; invariants by induction on the steps |
| C06 | The preallocated dataset of Core never overflows | proved | CoreProps | the run loop as a fuel-indexed step function over an arbitrary environment and agent; invariants by induction on the steps |
| C07 | VectorCore runs exactly the requested number of episodes | proved | VecCoreProps | termination flags of the environments as an arbitrary stream; counting invariants over boolean vectors |
| C08 | VectorCore.evaluate does not depend on earlier learn calls | partial | VecCoreProps | termination flags of the environments as an arbitrary stream; counting invariants over boolean vectors |
| C09 | VectorCore step budgets overshoot by less than one sweep | proved | VecCoreProps | termination flags of the environments as an arbitrary stream; counting invariants over boolean vectors |
| C10 | VectorCore fits use each transition exactly once and its buffer never overflows | partial | VecCoreProps | refinement of the array operations to lists; witnesses for the violations |
| C11 | Returns, lengths and initial states are computed per episode | partial | DatasetProps | structural induction against an episode-splitting specification |
| C12 | Dataset container semantics: append, index, slice, concatenate, clear | partial | DatasetProps | refinement of the containers to lists |
| C13 | ReplayMemory is a bounded FIFO | proved | ReplayProps | refinement of the circular buffer to a bounded FIFO; window specification of the n-step returns |
| C14 | N-step transitions are exact and never cross an episode end | proved | ReplayProps | refinement of the circular buffer to a bounded FIFO; window specification of the n-step returns |
| C15 | Adding a dataset to a replay memory leaves the dataset unchanged | partial | ReplayProps | refinement of the circular buffer to a bounded FIFO; window specification of the n-step returns |
| C16 | SequenceReplayMemory returns contiguous same-episode histories | partial | SumTreeProps | index arithmetic of the sampled windows |
| C17 | SumTree internal nodes always equal the sum of their leaves | proved | SumTreeProps | heap invariant of the array tree, prefix-sum specification over R |
| C18 | SumTree retrieval is proportional: mass s selects the leaf owning s | partial | SumTreeProps | heap invariant of the array tree, prefix-sum specification over R; with ties only between leaves the coin splits the pair's interval, with tied inner nodes the selection sets are computed exactly for a witness |
| C19 | Prioritised importance weights are normalised and priorities stay positive | proved | SumTreeProps | heap invariant of the array tree, prefix-sum specification over R |
| C20 | Saving and loading restores every saved attribute | partial | SerialProps | object trees and files, round trip by induction |
| C21 | A prioritised replay memory saved without its data does not claim to hold samples | partial | SerialProps | object trees and files, round trip by induction |
| C22 | Parameter schedules count visits and respect their threshold | proved | ParamProps | closed forms by induction over R |
| C23 | Variance-based parameters treat their size argument as a table size | partial | ParamProps | closed forms by induction over R |
| C24 | Epsilon-greedy and Boltzmann policies are probability distributions consistent with their sampler | proved | PolicyProps | finite sums over R |
| C25 | Tabular TD updates change one entry and never bootstrap from absorbing states | proved | TdProps | function-update algebra, invariants by induction over sample lists |
| C26 | Tabular values stay within the discounted reward bound | proved | TdProps | function-update algebra, invariants by induction over sample lists |
| C27 | Eligibility-trace methods reduce to one-step methods and traces stay bounded | proved | TdProps | function-update algebra, invariants by induction over sample lists |
| C28 | GAE is the per-episode discounted sum of TD errors | proved | AdvProps | recursions against closed-form sums |
| C29 | Monte Carlo advantages respect episode boundaries | partial | AdvProps | recursions against closed-form sums |
| C30 | Running statistics equal batch statistics | partial | UtilProps | algebra of running moments over R |
| C31 | Minibatches partition the dataset and keep rows aligned | proved | UtilProps | permutations and list chunking |
| C32 | Angle normalisation is a canonical representative | proved | UtilProps | floor function on R |
| C33 | Tile coding indices are in range, injective and cover the declared range | partial | FeatProps | mixed-radix arithmetic and intervals of R |
| C34 | Polynomial, Fourier and grid generators enumerate every multi-index exactly once | proved | FeatProps | NoDup/In characterisation of generated index lists |
| C35 | Generated finite MDPs are stochastic | partial | FmdpProps | finite sums; reachability and invariants |
| C36 | FiniteMDP and GridWorld stay in their state space | partial | FmdpProps | finite sums; reachability and invariants |
| C37 | Dynamic programming solvers return fixed points | partial | DpProps | sup-norm contraction, limits |
| C38 | The categorical projection preserves mass and expectation | proved | DqnProps | finite sums over R with floor and ceiling |
| C39 | Target networks follow the documented schedule | proved | DqnProps | induction over the number of fits |
| C40 | Episodic policy-gradient accumulators see one episode at a time | partial | PgProps | list recursions against a per-episode specification |
| C41 | TRPO conjugate gradient solves the Fisher system | partial | TrpoProps | real linear algebra with explicit aliasing |
| C42 | Truncated BPTT sequences never cross episode ends | partial | BpttProps | list slices |
| C43 | Environment states stay in their declared observation space | partial | EnvProps, ResetProps | real inequalities over arbitrary integrators |
| C44 | Ship steering gate test is exact | partial | EnvProps | real inequalities over arbitrary integrators |
| C45 | Regressor parameters round-trip and dispatch on the action | partial | ApproxProps | list algebra |
| C46 | Parallel environments answer in the right slot | partial | MpProps | asynchronous transition system, all interleavings |
| C47 | The logger keeps the best agent | partial | LogProps | induction over calls and files |
| C48 | Optimizers follow their gradient rule without touching the caller's gradient | partial | OptProps | real algebra with explicit aliasing |
| C49 | VectorPolicy.set_n sets the number of policies | partial | VpolProps | heap of policies, case analysis |
| C50 | LQR solver returns the value of the policy | proved | LqrProps | matrix algebra, derivatives |
| C51 | Weighted maximum-likelihood updates stay in the data hull | proved | BboProps, RepsProps | real inequalities, derivatives of densities |
| C52 | MORE surrogate equals the fitted quadratic | partial | RepsProps | algebra of quadratic forms |
| C53 | Gaussian score functions are gradients of the log density | proved | GaussProps | real inequalities, derivatives of densities |
| C54 | Batch value targets: fitted-Q and double fitted-Q | proved | BatchProps | list recursions over iterations |
| C55 | Collected datasets accumulate without changing episode structure | partial | DatasetProps | list recursion |
| C56 | VectorCore works with any number of environments, including one | partial | VecCoreProps | instance of the counting invariants |
| C57 | RQ-learning and weighted Q-learning keep their estimators consistent | partial | TdProps | invariants of weighted sums |
| C58 | Linear SARSA(lambda): true online version equals the online forward view | proved | TdProps | induction over episodes against the forward view |
| C59 | Min-max preprocessing maps bounded observations to the unit box without touching its input | partial | UtilProps | real inequalities |
| C60 | Feature vectors: one-hot tiles, nearest prototypes, action blocks | proved | FeatProps | list specifications, sums |
| C61 | Bootstrapped targets of the deep value-based agents | proved | DqnProps | list algebra over R |
| C62 | Reward and termination of the continuous environments | proved | EnvProps | case analysis over real inequalities |
| C63 | Fitting linear and tile-coding regressors; ensembles | partial | ApproxProps | least-squares and gradient algebra |
| C64 | Reopening a log continues its series | partial | LogProps | induction over calls and files |
| C65 | LSPI returns values with orthogonal one-step residuals | partial | BatchProps | linear algebra of the normal equations |
| C66 | Step information is kept per step, in order | proved | ExtraProps | association lists, induction over the key search |
| C67 | Black-box optimisation updates from matching parameters, returns and contexts | proved | BbAgentProps | simulation of the agent in the run loop |
| C68 | PPO, A2C and episodic PPO update on the clipped policy-gradient objective | proved | PpoProps | derivatives of the clipped objective, list algebra |
| C69 | Agents learn on the representation they act on | partial | PpoProps | induction over preprocessors |
| C70 | Stochastic actor-critic credits each TD error along the episode | proved | AcProps | induction over transitions, closed forms of the traces |
| C71 | The compatible deterministic actor-critic follows the deterministic policy gradient | proved | AcProps | derivatives, shape analysis |
| C72 | Exploration noise processes | proved | NoiseProps | closed forms, linear expectation |
| C73 | Movement primitives | partial | NoiseProps | closed forms and limits |
| C74 | Optimal values of the Car-on-Hill solver | partial | SolveProps | search invariant: the frontier is the set of states reachable without reward |
| C75 | Numerical gradients | partial | SolveProps | mean value theorem |
| C76 | Network weights, optimizer state and target networks survive copying | proved | TorchProps | heap of parameter tensors; induction on the parameter list |
| C77 | TorchApproximator.fit makes the requested epochs and stops early for the right reason | proved | TorchFitProps | loop invariants of the epoch and batch loops, fuel for the early-stopping loop |
| C78 | Quantile DQN regresses its predictions to the quantiles of the Bellman target | proved | DistProps | tensor algebra of squeeze/repeat/broadcast, derivative of the Huber quantile loss |
| C79 | Dueling, noisy and categorical heads | proved | HeadProps | sums over rows, mean of the advantage, projection of probability mass |
| C80 | Soft actor-critic: log-probabilities, entropy coefficient and warm-up | proved | SacProps | change of variables through tanh by the chain rule; invariants of the warm-up counter |
| C81 | Delayed actor updates and soft target updates | proved | SacProps | counting invariant of the delay, closed form of the soft update |
| C82 | Torch policies and torch distributions | partial | TpolProps | analysis of Gaussian densities and entropies, limits of the softmax in the temperature |
| C83 | Torch feature tensors | partial | TfeatProps | agreement of the tensor expression with the scalar feature, case by case |
| C84 | Atari environments: action repetition, frame history and episode boundaries | partial | AtariProps | invariants of the skip loop and of the frame buffer over arbitrary emulators |
| C85 | Wrappers of external simulators leave termination to the simulator and horizons to the core | partial | GymProps | simulation between wrapper and wrapped environment |
| C86 | Spaces describe what they were given and environments are made from their names | partial | SpaceProps | case analysis and list algebra; counterexamples by computation |
| C87 | MuJoCo observations have the declared layout, steps the declared duration, and MultiMuJoCo resets cleanly | partial | MjProps | induction on the observation specification, heap of models for MultiMuJoCo |
| C88 | PyBullet states, limits, actions and contact flags are those of the named objects | partial | PbProps | index arithmetic on joint and link tables, induction on the specification |
| C89 | Air hockey and ball-in-a-cup tasks reward, end and report what they document | partial | HockeyProps | real arithmetic of the reward cases, state invariants of the tasks |
| C90 | Array backends agree on reordering, medians, conversions and stacking, and the default environment is the selected one | partial | BackendProps | sorting and permutation lemmas; counterexamples by computation |
| C91 | Callbacks, plots, recordings, confidence intervals and the console show what happened | partial | MonProps | fold invariants of the callbacks, windows and recorders |
| C92 | Habitat, iGibson and Isaac wrappers pass observations, actions and flags on faithfully | partial | SimProps | simulation between wrapper and simulator |
| C93 | Observations returned by the classic environments never change afterwards | partial | ResetProps | heap of arrays: no cell reachable by a caller is written |
| C94 | Loaded and copied agents act with what they learn | partial | LinkProps | heap of approximators: identity of the learned and of the acting object |
| C95 | Loading restores every attribute the methods read | partial | SaveProps | decision on the table of 130 classes, lifted to all objects |
| C96 | Step information of several environments stays with its samples | partial | VecInfoProps | invariant between sample matrix, mask and information store over all sequences of appends, flattenings and clears |
| C97 | Videos of several environments | partial | VecRecProps | recorder list walked with the mask, induction on environments; name map |
| C98 | The classic control environments integrate the mechanics they are named after | proved | DynProps | derivatives of energies along exact solutions, algebraic solution of the equations of motion |
| C99 | MORE moves to the optimum of its trust-region problem | proved | MoreProps | completing the square in the exponent, weak duality, envelope inequality at a minimum |
| C100 | Observations and policy states of several environments chain | proved | VecPreProps | trace invariant of the vectorised loop |
| C101 | Tabular Q-learning, expected SARSA and Maxmin Q-learning converge on deterministic finite environments | proved | ConvProps | asynchronous contraction with diverging weights (envelopes shrink by (1+gamma)/2 per phase), fixed point by Cauchy sequence |
| C102 | A Q-learning agent trained by Core learns to act optimally | proved | CoreTdProps | simulation of Core runs by the transition system of C101; exploration from connectedness by induction on the distance; convergence from C101 |
| C103 | A DQN agent trained by Core learns only from recent transitions of that run, with the scheduled target network | proved | CoreDqnProps | invariant of the agent along the execution trace of Core (CoreDqnProps.trace_agent), refinement of the ring memory to its chronological content (C13) |
| C104 | Replay-based agents (DQN, DDPG, TD3, SAC) learn only from recent transitions over any sequence of learn and evaluate calls | proved | CoreReplayProps | the same invariant for a generic learner, carried over learn and evaluate calls by induction on the experiment; instances by unfolding the learners of C80 and C81 |
| C105 | On-policy agents are fitted on data of the policy they update | partial | OnPolicyProps | Induction over the loop of Core._run: at each fit the dataset is the samples logged since the fit before; the trace of the run (CoreSpec) is cut there and the weights followed through reset, draw and preprocessing. VectorCore: witness run with two environments and three steps per fit. |
| C106 | The gradients of REINFORCE and GPOMDP estimate the gradient of the expected return | partial | PgExpProps | Episodes are enumerated with their probabilities (tree of actions and outcomes up to the horizon); the derivative of an expectation is the expectation of the product with the score, by induction over the horizon; rewards are uncorrelated with later scores; C40 identifies the gradient computed by fit. Bias: two-armed bandit with logistic policy. |
| C107 | SARSA agents bootstrap from the action they take next | proved | CoreSarsaProps | The textbook algorithm is an inductive relation over transitions (CoreSarsaProps.textbook); loop invariant of Core._run with one step per fit; the list of bootstrap actions is read off the relation. |
| C108 | Policy-gradient agents trained by Core follow the gradient of whole on-policy episodes | partial | CorePgProps | Composition of CoreModel with PgModel (CorePgModel.v: the agent keeps weights, the algorithm's accumulators and an arbitrary optimizer). The set of reachable agents is an inductive predicate over learn/evaluate calls; an invariant says that the accumulators are clean between fits. The log invariant 'every fit directly follows a step' together with C105's 'a fit gets what was collected since the previous fit' shows that fits happen between episodes, so every dataset consists of whole episodes; then the single-fit lemmas of C40 apply. |
| C109 | Optimizers of torch agents follow their parameters through saving, loading and copying | partial | GradProps | Heap of parameter cells (value, gradient) with optimizers as address lists plus a state dictionary (GradModel.v). A representation invariant links each part to a pure record of values and states: the optimizer's and clipper's lists are the network's list, addresses of different parts are disjoint, the state has no other keys. Each operation preserves it, relinking by an induction over the moved state. For ePPO a second invariant (optimizer addresses disjoint from all networks, no gradient there) makes every later step the identity. |
| C110 | PPO and A2C trained by Core make the textbook update at every fit | partial | CorePpoProps | Composition of CoreModel with PpoModel (CorePpoModel.v: the agent keeps weights, agent preprocessors and critic; any update function that is defined on two rows or more). C105's theorem gives the dataset of each fit and that weights and preprocessors did not change since its actions were drawn; the schedule invariant of CoreProofs gives its size; the step relation gives that absorbing steps are last, the hypothesis of the GAE theorem of C28, and without a horizon the converse, needed by the Monte Carlo one. The single-fit theorems of C68 do the rest. |
| C111 | A DQN agent with prioritised replay trained by Core makes the textbook update | partial | CorePerProps | Composition of CoreModel with SumTreeModel and DqnModel (CorePerModel.v). The abstraction is the list of rows, oldest first, each with the priority of its leaf (`held`); a generic ring lemma shows that storing keeps the last max_size of the extended list, the heap lemmas of C17 give that the root is the sum of the priorities of the list and the maximum leaf their maximum, and a lemma on updates with possibly repeated leaves gives the priorities after a fit. The invariant (well-formed tree, positive priorities exactly on the rows) is carried through every learn and evaluate call by the trace induction of C103. |
| C112 | Training goes on after a call, an epoch, a save or a load | partial | ResumeProps | ResumeModel.v / ResumeProps.v. A bisimulation theorem for Core (outcomes depend on the agent only through its methods), instantiated with the agents of C103/C104/C107/C111 and what a load leaves of them; a simulation between one long call and two short ones. |
| C113 | Tabular learning converges in stochastic environments | proved | CoreFmdpProps, StochProps | StochSpec.v / StochProofs.v / StochProps.v / CoreFmdpModel.v / CoreFmdpProps.v. The error is split into a part that contracts asynchronously and an exponential average of the noise at the optimum; the latter is a linear combination of the deviations of the weighted outcome frequencies, which vanish by assumption. Existence of the optimum by Banach iteration, meaning by induction on plans. The run of Core is simulated by a sequence of situations for an arbitrary environment, instantiated with FmdpModel's step. |
| C114 | Training with VectorCore keeps the environments apart, and PPO trained by it makes the textbook update at every fit | proved | VecLearnProps | VecLearnModel.v gives values to the cells of VecCoreModel: environments with states, a batch of draws, a fit that changes the agent, all depending on what the run produced. Its runs are simulated by the schedule of VecCoreModel with the absorbing flags the run itself reports (VecLearnProofs.xiterate_inv), so that the theorems of C99 on masks, counters and flattened datasets apply. The specification (VecLearnSpec.v) is a history: a list of events (reset, step, fit), each allowed by the environments and the agent, and for every environment an automaton for its life. From it follow, as in C105 and C110, that weights do not change between fits and that absorbing steps are last; GAE stops at the last row of an environment, the Monte Carlo targets of A2C do not. |
| C115 | Every fit of TRPO stays inside its trust region, also when trained by Core and VectorCore | partial | TrpoFitProps | TrpoFitModel.v composes the routines of C41 with the loss, the divergence and the Fisher matrix they are called with and with the rows of C68. The line search is proved by induction over its iterations; the quadratic divergence of the step is C41's full_step_kl; the mean of the normalised advantages being zero gives the value of the objective at the old weights. The runs under Core and VectorCore are instances of the generic parts of C110 and C114 (any update defined on two rows or more). |
| C116 | ConstrainedREPS stays within its divergence and entropy bounds | partial | ConRepsProps | Lagrangian duality without derivatives: the new parameters maximise the Lagrangian (completing squares, ln x <= x - 1, and for a full covariance the tangent bound of the log-determinant proved from Cholesky factors by forward substitution), so the dual is convex with the constraint slacks as subgradients; the slacks are continuous in the multipliers (for a full covariance by squeezing with the order-reversing inverse), so a local minimum satisfies the constraints, with complementary slackness. |
| C117 | PPO_BPTT compares with the probabilities its recurrent policy really acted with, on windows of one episode | partial | BpttFitProps | The stored windows are characterised independently (going back from a row to the end of the episode before, at most L rows) and shown to be what the code cuts out for clean rows. Executions of Core are shown to chain policy states from row to row, so replaying the network over a window from its stored first policy state gives the hidden state of the interaction (fold over the window). Advantages only look ahead inside the episode, where all rows are clean, so the GAE theorem applies; the gradient is that of C33's loss with all ratios one. |
| C118 | Core.evaluate(n_episodes=n) reports n independent returns of the policy, and every fit of Core.learn sees fresh on-policy episodes | partial | SampProps | Two tapes of independent draws are threaded through the Core model; the loop is unrolled episode by episode into a deterministic function of the tapes (for any fuel and any capacity that suffice), whose expectation is computed by popping one draw at a time (Fubini for finite sums) and equals the sum over paths of the Markov decision process. Independence of successive episodes is the product form of the batches; learning is the same with a fit between batches. Variance by the second moment of a sum of centred draws, probability by Chebyshev. |
| C119 | VectorCore with parallel environments has no length bias: evaluate reports independent returns and policy-gradient agents learn as under Core | proved | VecSampProps | The VectorCore run is simulated environment by environment (one slot per environment: finished episodes, episode in progress); which environments step, start or idle in an iteration depends on earlier iterations only, never on the draws of this one. A potential (the expectation when the episodes in progress are completed and the remaining budget is filled with fresh episodes) is shown invariant under an iteration for quantities symmetric in the episodes; at the end it is the quantity itself, at the start the expectation over independent episodes. Learning adds a fit whenever all slots are idle with k episodes. REINFORCE and GPOMDP are order-independent by their gradient formulas (C40). |
| C120 | eNAC takes the natural gradient step of its episodes | partial | EnacProps | pinv(PSI) R is shown to solve the normal equations and to lie in the row space from the four Moore-Penrose equations alone; these are met by Greville's column by column construction, which is formalised. The covariance form follows from the normal equations for the constant feature; reparametrisation, compatible advantages and the population statement from uniqueness of the predictions of a minimiser. The population statement uses the derivative of the expected return of C106. Composed with the Core runs of C108 for the episodes of every fit. |
| C121 | FQI with one linear model per action is value iteration on the data when the features are a table | partial | FqiLinProps | FQI's loop is the one of BatchModel (C54), instantiated with the per-action linear regressor. Normal equations and minimality of the pseudo-inverse solution (from C120) give the cell means and the zeros; the iteration is a contraction in the sup norm on (part, action) tables, and the Banach fixed point section of DpProofs gives existence, uniqueness and the rate. Divergence: the scalar recursion theta' = 3/5 + 6/5 gamma theta. |
| C122 | LSPI on a table ends, and with the optimal values of the data | partial | LspiTabProps | The LSPI loop is the one of BatchModel. With indicator features the normal equations of a pass are the evaluation equations of the greedy policy (LspiTabProps.system); a one-sided contraction lemma on tables (LspiTabProofs, section Tab) gives regularity, policy improvement, the rate and the stopping bound. The failure is computed from the characterisation of the pseudo-inverse as smallest least squares solution. |
| C123 | BoostedFQI with linear models computes what FQI computes; DoubleFQI never overestimates beyond the data but need not converge | partial | EnsFqiProps | Boosting: the targets of the loop telescope and the regression is a linear map of the targets, so the sum of the models is the regression of the last full target; induction over the iterations against fqi_run. DoubleFQI: one iteration on a table as an operator on two tables; upper errors contract with gamma, lower errors with 2 gamma because the action chosen by one table is valued by the other; an explicit data set on which the pair of tables has period two. |
| C124 | Rainbow under Core stores exactly the n-step windows of each fit, trains on their n-step distributional targets, and never learns when fits are shorter than the return | partial | RainbowProps | RainbowModel.v models Rainbow.fit over SumTreeModel (prioritised memory, n-step add) and DqnModel.project; RainbowProofs.v shows that adding n-step returns to the tree appends exactly the windows with the given priority and counts windows by episode; RainbowProps.v composes with CoreSpec traces (invariant: well-formed tree, positive priorities exactly on the rows). |
| C125 | What replay agents learn from under VectorCore | partial | VecReplayProps | composition of VecLearnModel with CoreReplayModel and RainbowModel; invariants of C104 and C124 carried along the history of C114; windows split at rows that end an episode (VecReplayProofs.nstep_app), and flattening closes every environment's part; each fit is a permutation of the transitions since the fit before; in step schedules every environment takes part in every step (added to vec_learn_history), so that a fit every n*q steps holds q steps of each. |
| C126 | Black-box optimisation under VectorCore: which parameters belong to which episode, and why no such training starts | partial | VecBbProps | Every observation carries a mark telling whether a reset made it, so that the mask given to episode_start_vectorized is known when actions are drawn; C114's history then applies. Along the history an invariant per environment splits its transitions since the last fit into whole episodes and the one in progress, paired with the list of parameters; the lists of all environments are joined in the order of the flattened dataset. The failures follow from the first marked observation. |
| C127 | What Double Q-learning learns on deterministic environments | partial | DoubleConvProps | DoubleConvProps.v, on dq_update of TdModel and the environments and optimal values of ConvProps: a one-sided asynchronous contraction lemma (entries whose targets are eventually below kappa times the largest entry end up below any positive floor) applied to the excess over the optimal values (factor gamma) and, once the excess is small, to the deficit (factor 2 gamma); the limits of two convergent tables differ by at most gamma times their difference; near the optimal values every maximiser of a table is an optimal action, so the two-sided contraction of ConvProps applies; over one sweep of rate beta the difference of the tables shrinks by 1 - beta (1 - gamma) up to a term of order beta squared, and so does the error once the difference is small; the counterexample is an explicit cycle of 12 updates, all of its tables given as rationals. |
| C128 | RQ-learning converges on deterministic environments | proved | RqConvProps | RqConvProps.v, on rq_update of TdModel and the environments of ConvProps: R_tilde converges to the reward by asynchronous averaging; Q_tilde is an asynchronous gamma-contraction towards the largest next value, perturbed by the vanishing error of R_tilde and absorbed by the floor of the one-sided lemma of DoubleConvProps; Q is a function of the two at every update. |
| C129 | SARSA and Expected SARSA on deterministic environments | proved | GlieProps | GlieProps.v, on sarsa_update and esarsa_update of TdModel and eg_probs, bz_probs of PolicyModel: updates whose next value is below the largest one contract the excess over the optimal values; updates whose next value is within a vanishing distance of it contract the error with factor (1 + gamma)/2 above any floor; the distance is at most 2 B epsilon for EpsGreedy (B bounds the table for ever) and k / beta for Boltzmann. |
| C130 | Q(lambda) with traces does not inherit the convergence of Q-learning | proved | QLambdaConvProps | QLambdaConvProps.v, on q_lambda_update and trace_reset of TdModel and the environments of ConvProps: with lambda = 0 the traces are zero at every update, so the run is a run of Q-learning; the counterexample is an explicit run of seven starting moves and a cycle of ten, all tables and traces given as rationals and checked step by step. |
| C131 | Weighted Q-learning never ends up above the optimal values | proved | GlieProps | GlieProps.v, on wq_update and wq_next of TdModel: the weights are a distribution (TdProps), so the next value is below the largest one, and equal to it when they are concentrated on maximisers; the two lemmas on soft targets of C129. |
| C132 | Black-box optimisation trained by Core updates on whole fresh episodes; PGPE with one episode per fit never learns | proved | CoreBbProps | CoreBbProps.v composes the agent of C67 (BbAgentModel.v) with the whole-episode lemmas of C108; CoreBbModel.v adds PGPE._update on top of pgpe_grad (C51, GaussModel.v) and the optimizers of C48. Distribution, policy, generator and context builder stay arbitrary; PGPE is modelled with a distribution without context. `core_pgpe_one_episode_refuted` is stated over the reals: in floats J*d^2/d^2 can differ from J by a rounding error, so the code moves by noise. RWR (constant beta) and REPS are added on a GaussianDiagonalDistribution, with NaN as None; underflow of the weights to 0 is not modelled. |
| C133 | Policy states and parameter lists of a dataset through views, sums, from_array and flatten | proved | AuxDsProps | AuxDsModel.v: datasets as rows written, whole array of policy states and parameter list; get_view resolves the index against the rows for the transitions and against the whole array for the policy states, as the code does; AuxDsProps.v: induction on the expression that makes the dataset. Flags, info dictionaries, copy=True and boolean masks are not modelled here. |
| C134 | EpsGreedy on predictions with one row per state | proved | EgBatchProps | EgBatchModel.v: np.argwhere(...).ravel() on a matrix lists row and column of each largest entry; the choice position is an argument. The forward pass of the network is not modelled: that a given network keeps the batch dimension (as the `view(-1, 3136)` of examples/atari_dqn.py does) was read from its source. |
| C135 | TD3's smoothing noise follows its schedules and is cut symmetrically, unless one Parameter object serves both | proved | Td3NoiseProps | Td3NoiseModel.v: the parameters are objects in a heap and the agent holds references, so that sharing one object is expressible; induction over the fits with the visit counts as the invariant. The Gaussian draws are arguments (standard normals scaled by the deviation). |
| C136 | The schedule of PPO's clipping range moves with the minibatches, and the range is symmetric around one | proved | PpoClipProps | PpoClipModel.v keeps only what reads and advances eps_ppo; a loop lemma (n rounds of d steps take n*d steps of the parameter) used for epochs and minibatches, then induction over the fits. |
| C137 | The line search of TRPO does not compare candidates under one objective when ent_coeff is scheduled | proved | TrpoEntProps | TrpoEntModel.v gives the coefficients of TrpoFitModel.v as successive calls of a parameter; both outcomes of the search computed under the schedule and under its first value. |
| C138 | ConstrainedREPS takes two steps of a scheduled eps per update, and its two bounds differ | proved | CrepsSchedProps | CrepsSchedModel.v threads the parameter through the updates of ConRepsModel.v; each step is closed with the bounds of C116. |

A status of `partial` means that the manifest names what is missing or that part of the claim is
refuted by a theorem with the suffix `_refuted` (the faithful model violates it).

## Which parts of the code are modelled

The header of every model file, as it stands there. Each definition in the file cites the lines it
transcribes.

* `AcModel.v`: Model of the classic actor-critic agents (/repo/mushroom_rl/algorithms/actor_critic/ classic_actor_critic/stochastic_ac.py and copdac_q.py). Weight vectors are functions of the component. The value function is the linear approximator the constructors build (one output, no bias). Learning rates and the trace decay are schedules: the k-th call of the parameter returns [f k] (and may depend on the state and action where the code passes them).
* `AdvModel.v`: Model of the advantage estimators (/repo/mushroom_rl/rl_utils/value_functions.py). Each step carries the numbers the functions read: the value of the state and of the next state, the reward and the two flags. Tensors are lists; a tensor with one element loses its only dimension under squeeze(), after which len() raises (None).
* `ApproxModel.v`: Model of the linear, tile-coding, action-wise and ensemble approximators (/repo/mushroom_rl/approximators/parametric/linear.py, parametric/cmac.py, _implementations/action_regressor.py, _implementations/q_regressor.py, regressor.py, ensemble.py). Floats are real numbers. Weight matrices are lists of rows, one per output.
* `AtariModel.v`: Atari environments (mushroom_rl/environments/atari.py, gymnasium_atari.py) and LazyFrames (utils/frames.py). The emulator is an arbitrary transition system: its states, its screens and its rewards are oracles. The preprocessing of a screen (grey scale, resize) is a function, and so is the pooling of two screens. self.env.env.step, which peels one wrapper off, is the same emulator step: a time limit of gym counted in the peeled wrapper is not modelled.
* `AuxDsModel.v`: The columns of a dataset beside the transitions: the states of the policy and the list of policy parameters (/repo/mushroom_rl/core/dataset.py 60-282 and 590-640, /repo/mushroom_rl/core/_impl/numpy_dataset.py; torch_dataset.py has the same lines). A row is a transition; [ps] gives the pair of policy states that went with it. [None] is an exception. Flags, info dictionaries and masks are left out (DatasetModel.v has the flags).
* `BackendModel.v`: Model of core/array_backend.py (the numpy, torch and list backends) and core/vectorized_env.py. An array is its shape and its elements by index. Devices, dtypes and strides are not modelled. None is a raised exception, unless said otherwise.
* `BatchModel.v`: Batch value methods: algorithms/value/batch_td/{fqi,double_fqi,boosted_fqi,lspi}.py. A regressor is an abstract model with a function [fit] (model, states, actions, targets) and a function [pred] giving the values of all actions in a state; both are arbitrary. The batch prediction is the list of the predictions. Floats are reals. The number of iterations is the value of the parameter at the beginning of [fit]. numpy.linalg.solve and pinv are one argument of LSPI; the while loop has a fuel. The progress bar is not modelled.
* `BbAgentModel.v`: The black-box optimisation agent (/repo/mushroom_rl/algorithms/policy_search/black_box_optimization/black_box_optimization.py) running in a Core (CoreModel.v). The distribution, the policy, the context builder and the update rule are arbitrary; [G] is the state of the random generators. Every action carries, as an annotation that the environment does not see, the policy weights it was drawn with and the context of the episode. A distribution without context has a constant context builder.
* `BpttFitModel.v`: PPO_BPTT.fit (mushroom_rl/algorithms/actor_critic/deep_actor_critic/ppo_bptt.py), the recurrent policy it trains (policy/recurrent_torch_policy.py) and the two under [Core]. The recurrent networks are given by the step of their hidden state and by the layers behind it, of any type, as in the networks of examples/gym_recurrent_ppo.py 64-94 and 131-158: the sequence is padded, the network is told the length, the recurrent layer runs over the first [length] entries (pack_padded_sequence) from the hidden state it is given, and the last layers see the last of these entries and the final hidden state. The critic is any function of those entries and of the hidden state it is given. Actions have at least two components (for one component log_prob_t breaks, see TpolProps.v). Simplifications: as in PpoModel.v and CorePpoModel.v.
* `BpttModel.v`: PPO_BPTT._transform_to_sequences, mushroom_rl/algorithms/actor_critic/deep_actor_critic/ppo_bptt.py 97-150. The arrays states_old, states, actions and next_states are cut in the same way: [xs] stands for any of them, [ps] for the policy states or next policy states.
* `Common.v`: Shared list and real-number helpers used by several models. Nothing here transcribes code of /repo; it is the vocabulary (array update, slices, finite sums) with which the transcriptions are written.
* `ConRepsModel.v`: ConstrainedREPS: the whole update rule (algorithms/policy_search/black_box_optimization/constrained_reps.py) with the constrained weighted maximum-likelihood fits it calls (con_wmle in distributions/gaussian.py). The two dual functions, the new mean, the new standard deviations and the new covariance are those of file [GaussModel]. scipy.optimize.minimize is an oracle that receives the function to minimise and returns a point; the theorems assume that the point is a local minimum within the bounds that the code passes, whose lower end numpy.finfo(numpy.float32).eps is the number [lb]. numpy.linalg.inv, slogdet (its second result) and cholesky are oracles on matrices; the contract they are assumed to satisfy is [linalg_ok].
* `CoreBbModel.v`: PGPE under [Core]: the update rule that BbAgentModel.v leaves open, with the optimizers of OptModel.v (/repo/mushroom_rl/algorithms/policy_search/black_box_optimization/pgpe.py).
* `CoreDqnModel.v`: Composition: [Core.learn] (CoreModel.v) driving a DQN agent (abstract_dqn.py 83-101, dqn.py 11-16) with a [ReplayMemory] (ReplayModel.v), in an arbitrary environment. Simplifications: the network is an arbitrary function [predict] of weights and state, and one call of approximator.fit an arbitrary function [train] of weights and batch; the policy is an arbitrary function of the weights, the observation and the number of actions drawn so far; the indices drawn by [ReplayMemory.get] are an arbitrary function of the number of the fit and the number of rows held; batch size constant; the prioritized variant is not part of this file (see CorePerModel.v).
* `CoreFmdpModel.v`: Composition: [Core.learn] (CoreModel.v) driving a [QLearning] agent with an [EpsGreedy] policy (CoreTdModel.v) in a [FiniteMDP] (FmdpModel.v). Cited code: core/core.py 98-180, environments/finite_mdp.py 42-66, and the code cited in CoreTdModel.v. Simplifications: the random numbers of the environment are given by the functions [b] (state drawn by the i-th call that draws, when it is reset) and [w] (state drawn by the i-th call that draws, when it is a step from the given state with the given action); the library's one-element arrays for states and actions are plain numbers.
* `CoreModel.v`: Model of [Core] and [CoreLogic] (/repo/mushroom_rl/core/core.py, /repo/mushroom_rl/core/_impl/core_logic.py). The environment, the agent (its policy, its random state, its preprocessors) are arbitrary functions over arbitrary state types. Rendering, recording, progress bars, step/episode info dictionaries and user callbacks are left out. Python exceptions are explicit outcomes.
* `CorePerModel.v`: Composition: [Core.learn] (CoreModel.v) driving a DQN agent with a [PrioritizedReplayMemory] (SumTreeModel.v). Cited code: algorithms/value/dqn/abstract_dqn.py 83-88 and 103-132 (fit, _fit_prioritized, _update_target), dqn.py 11-16 (_next_q), rl_utils/replay_memory.py 469-599. Simplifications: as in CoreDqnModel.v; one call of approximator.fit is an arbitrary function [train] of weights, batch and sample weights; the value of a state-action pair is an arbitrary function [qa] of the weights; the uniform numbers and the coin flips of the retrieval are arbitrary functions of the number of the fit; reading a slot that was never written (the arrays of the dataset are not initialised there) leaves the agent as it is and is recorded in [d_ok].
* `CorePgModel.v`: Composition: [Core] (CoreModel.v) driving the policy-gradient agents (PgModel.v). Cited code: core/core.py 98-180; core/agent.py 73-103 (draw_action samples from the policy, next_action is never set by these agents); algorithms/policy_search/policy_gradient/ policy_gradient.py 34-71 (fit parses the dataset with the weights of the policy, then [theta_new = optimizer(theta_old, grad)] and set_weights), 123-141 (_parse). Simplifications: no core preprocessors; a policy is any function of its weights, the number of draws made so far (its source of randomness) and the observation; the optimizer is any function with its own state; an exception raised by fit leaves the policy as it is and is recorded in [p_ok] (in Python it also ends the call of learn).
* `CorePpoModel.v`: Composition: [Core] (CoreModel.v) driving PPO and A2C (PpoModel.v). Cited code: core/core.py 98-180; core/agent.py 80-103 (draw_action applies the agent preprocessors of the agent to the state, then samples from the policy; next_action is never set by these agents); algorithms/actor_critic/deep_actor_critic/ppo.py 73-107 and a2c.py 59-75 (fit), deep_actor_critic.py 6-20. Simplifications: no core preprocessors; the policy is any function of its weights, the number of draws made so far (its source of randomness) and the state it sees; the optimizer step is any function of weights and loss (PpoModel.v), with no state of its own; schedules of epsilon and of the entropy coefficient and shuffles are functions of the number of the fit; a fit that raises or produces NaN leaves the agent as it is and is recorded in [c_ok] (in Python the NaN ends up in the weights).
* `CoreReplayModel.v`: Composition: [Core] (CoreModel.v) driving an agent that learns from a [ReplayMemory] (ReplayModel.v), and the agents DDPG (ddpg.py 91-138), TD3 (td3.py 63-102) and SAC (sac.py 263-316) as instances, over the learners of SacModel.v and the bootstrapped values of DqnModel.v. Simplifications: the networks and one call of an optimizer are arbitrary functions; the policy with its internal state (exploration noise, random generator) is an arbitrary transition function; the indices drawn by [ReplayMemory.get] are an arbitrary function of the number of the fit and the number of rows held; batch size and policy_delay constant; no agent preprocessors.
* `CoreSarsaModel.v`: Composition: [Core] (CoreModel.v) driving the agents of the SARSA family (TdModel.v). Cited code: core/core.py 98-180; core/agent.py 73-103 (draw_action: the action left by the algorithm is executed and forgotten, otherwise the policy draws one); algorithms/value/td/ td.py 28-32 (fit asserts a single sample and calls _update), sarsa.py 15-23, sarsa_lambda.py 32-47, true_online_sarsa_lambda.py 39-68, sarsa_lambda_continuous.py 34-55 (each draws [self.next_action] with draw_action(next_state) before it changes the values, and episode_start resets the traces). Simplifications: no core preprocessors; a policy is any function of the learner's state, the number of draws made so far (its source of randomness) and the observation; the learning rate is any function with its own state; lambda is a number; the linear regressors predict with a dot product of weights and features of the state-action pair.
* `CoreTdModel.v`: Composition: [Core.learn] (CoreModel.v) driving a [QLearning] agent (TdModel.v) with an [EpsGreedy] policy (PolicyModel.v) and a visit-counting learning rate (ParamModel.v) in a finite environment. Cited code: core/core.py 98-180, algorithms/value/td/td.py 28-32 (fit asserts a single sample and calls _update), q_learning.py 18-24 ([self._alpha(state, action)]), policy/td_policy.py 82-93. Simplifications: the environment is deterministic and always starts in [s0]; epsilon is a constant parameter; the random numbers are three infinite sequences, one entry of each per call of draw_action (the entries that a call does not use are skipped; since they are arbitrary this does not restrict anything).
* `CrepsSchedModel.v`: ConstrainedREPS with a scheduled eps over a run of updates, for a Gaussian of fixed covariance (/repo/mushroom_rl/algorithms/policy_search/black_box_optimization/constrained_reps.py 38-51, the fits are those of ConRepsModel.v). kappa is not used by this distribution.
* `DatasetModel.v`: Model of the dataset containers and of the statistics of [Dataset] (/repo/mushroom_rl/core/dataset.py, core/_impl/numpy_dataset.py, core/_impl/list_dataset.py, utils/callbacks/collect_dataset.py). Simplifications: the parallel column arrays of a NumpyDataset are one list of rows of the length of the allocation; the policy-state columns, which are indexed differently by [get_view], are kept as a separate list. Rewards are real numbers. [np.empty] memory is an argument of the functions that allocate. TorchDataset has the same code as NumpyDataset (torch_dataset.py 103-215) and is covered by the same definitions. The extra-info dictionaries and theta lists carried by Dataset are not part of this model.
* `DistModel.v`: Network heads and losses of the distributional and structured DQN variants (mushroom_rl/algorithms/value/dqn: quantile_dqn.py, categorical_dqn.py, dueling_dqn.py, noisy_dqn.py, rainbow.py). A tensor is a shape with a function from index lists; the quantile loss is written operation by operation on tensors because its meaning depends on the shapes. The feature network and the affine layers are oracles (their outputs are arbitrary numbers), floats are reals.
* `DpModel.v`: Dynamic programming solvers (mushroom_rl/solvers/dynamic_programming.py). Arrays of shape (n, m, n) are functions of three indices, value vectors are lists of length n, reals are ideal.
* `DqnModel.v`: Deep value-based agents (mushroom_rl/algorithms/value/dqn, deep actor-critic targets). Networks are oracles: weights are values of an arbitrary type (or vectors of reals for soft updates), predictions are rows of reals. Batches are lists; the rows are independent, so the projection is written for one row.
* `DynModel.v`: Right-hand sides of the ordinary differential equations that the classic control environments hand to scipy's odeint (mushroom_rl/environments/car_on_hill.py, inverted_pendulum.py, cart_pole.py, segway.py), and what CarOnHill and Segway draw. Numbers are reals; x ** 1.5 is [Rpower]. The integrator itself is not modelled here: theorems speak of exact solutions.
* `EgBatchModel.v`: EpsGreedy.draw_action on a batch of states, as [VectorCore._step] calls it (/repo/mushroom_rl/policy/td_policy.py 82-93, /repo/mushroom_rl/core/vectorized_core.py 151-153, /repo/mushroom_rl/core/multiprocess_environment.py 113-116). [q] is the prediction of the approximator: one row per state, one column per action. [u] is np.random.uniform(), [c] the position np.random.choice takes, [r] the random action.
* `EnacModel.v`: The direction eNAC hands to its optimizer, mushroom_rl/algorithms/policy_search/policy_gradient/enac.py 35-44. The rows and returns collected by [_step_update] and [_episode_end_update] are those of [PgModel.enac]; this file adds the last step, [np.linalg.pinv(PSI).dot(R)] and the slice to the policy weights. [np.linalg.pinv] is an argument: given the numbers of rows and columns and a matrix it returns a matrix; theorems assume the Moore-Penrose equations of it.
* `EnsFqiModel.v`: BoostedFQI and DoubleFQI with linear regressors (mushroom_rl/algorithms/value/batch_td/{boosted_fqi,double_fqi}.py, approximators/regressor.py, approximators/ensemble.py). The loops are [BatchModel.boosted_fit] and [BatchModel.dfqi_fit].
* `EnvModel.v`: Continuous control environments: state handling of mushroom_rl/environments/{puddle_world,ship_steering,lqr,inverted_pendulum, cart_pole,segway,car_on_hill}.py. The ODE integrator [odeint] is an oracle: its result is an arbitrary state. Random draws are arguments.
* `EpisodeSpec.v`: Specification vocabulary: cutting a sequence of samples into episodes.
* `ExtraModel.v`: ExtraInfo (core/extra_info.py): the step information collected next to a dataset. One environment (n_envs = 1) and one array backend. A step information is a nested dictionary whose leaves are values (numbers or arrays) of an arbitrary type; all the values of a key have the same shape, so shapes and the shape mapping are left out. [none] is the filler of the backend (nan). Dictionaries are association lists in insertion order. Exceptions are [None]. Not modelled: several environments, flatten, backend conversion, saving, views sharing memory.
* `FeatModel.v`: Model of tilings, basis functions, feature vectors and grids (/repo/mushroom_rl/features/tiles/tiles.py, tiles/voronoi.py, features/_implementations/tiles_features.py, features/features.py, features/basis/polynomial.py, basis/fourier.py, basis/gaussian_rbf.py, utils/features.py). Floats are real numbers.
* `FmdpModel.v`: Model of finite MDPs, their generators and the grid worlds (/repo/mushroom_rl/environments/finite_mdp.py, environments/grid_world.py, environments/generators/simple_chain.py, generators/grid_world.py, generators/taxi.py). Arrays indexed by states and actions are functions; assignments are function updates in program order. Probabilities are real numbers.
* `FqiLinModel.v`: FQI with the linear regressor, one model per action (mushroom_rl/algorithms/value/batch_td/fqi.py, approximators/_implementations/action_regressor.py, approximators/parametric/linear.py). The loop of FQI is [BatchModel.fqi_fit].
* `GaussModel.v`: Gaussian distributions and policies, and the black-box optimisers that use them: mushroom_rl/distributions/gaussian.py, mushroom_rl/policy/gaussian_policy.py, algorithms/policy_search/black_box_optimization/{rwr,reps,constrained_reps,more,pgpe}.py. Floats are reals. Vectors and matrices are functions of their indexes (file [Mat]). numpy.linalg.inv, slogdet and cholesky, scipy.optimize.minimize and the log-determinant inside scipy.stats.multivariate_normal are not modelled: their results are arguments, and the theorems state as hypotheses what they need to know about them. numpy.linalg.inv of a diagonal matrix is written as the diagonal matrix of the inverses, and its slogdet as the sum of the logarithms.
* `GradModel.v`: Torch parameters, their gradients and the optimizers that refer to them, through training, saving, loading and copying. Cited code: utils/torch.py 134-142 (update_optimizer_parameters); approximators/parametric/ torch_approximator.py 57-59 (the optimizer is built on network.parameters()), 200-207 (_fit_batch), 313-315 (_post_load); algorithms/actor_critic/deep_actor_critic/ deep_actor_critic.py 40-50, 69-85 (_optimize_actor_parameters, _clip_gradient), 98-101 (_update_optimizer_parameters), sac.py 288-298 and 317-323 (temperature, _post_load), ddpg.py 141-143, a2c.py 76-77, ppo.py 94-105 and 126-128, ppo_bptt.py 150-171; policy_search/black_box_optimization/eppo.py 28, 55-64 (no _post_load); core/serialization.py 100-141 and 143-149 (load_zip, copy). Conventions of torch that are part of the model: backward adds to the [grad] of every parameter the loss depends on; zero_grad sets it to None; step visits the parameters of the optimizer and skips those without gradient; the state of an optimizer is a defaultdict keyed by parameter objects, empty before the first step, and each parameter is updated on its own; saving stores values without gradients, every file is loaded into new tensors, and the optimizer's file holds its own copy of its parameters; deepcopy keeps the sharing. Simplifications: one parameter group (the classes cited never build another one); the hyperparameters are part of the update rule; a loss is any function from the values of all parameters of the agent to gradients (None: the loss does not depend on the parameter).
* `GymModel.v`: Wrappers of external simulators (mushroom_rl/environments/gym_env.py, gymnasium_env.py, minigrid_env.py, dm_control_env.py). The simulator itself (the innermost environment) is an arbitrary transition system. What gym.make and the user put around it is a list of layers, outermost first. A layer is a TimeLimit, which is the one that has the private attribute _max_episode_steps (gym and gymnasium do not forward private attributes to the inner environment), or something that changes neither observations nor flags. Attributes written on a layer stay on that layer.
* `HockeyModel.v`: Model of the task environments on the simulators: environments/mujoco_envs/ball_in_a_cup.py, mujoco_envs/air_hockey/*.py and pybullet_envs/air_hockey/*.py. The simulator only appears through its readings and contacts; constants are the ones of the code. None is a raised exception or NaN.
* `LinkModel.v`: Which approximator an agent learns and which one it acts with, through saving, loading and copying: core/serialization.py 40-153, core/agent.py 55-70, algorithms/value/td/td.py 12-27 and 49-50, algorithms/value/batch_td/batch_td.py 37-38, algorithms/value/dqn/abstract_dqn.py 148-154, policy/td_policy.py 9-38 and 183-232, algorithms/actor_critic/deep_actor_critic/ddpg.py 62-68 and 141-143, algorithms/actor_critic/classic_actor_critic/copdac_q.py 30-60. Objects that matter here are cells: an approximator is a cell holding its weights [W], a policy is a cell holding the address of its approximator, and the Mellowmax temperature holds the address of the policy it belongs to ([_outer]). Saving writes the object as a tree, so that loading makes a separate new object for every registered attribute; a registered attribute that is pickled brings a new copy of everything it refers to. deepcopy keeps sharing. All other attributes are left out (C20 is about them).
* `LogModel.v`: Model of DataLogger (/repo/mushroom_rl/core/logger/data_logger.py) and of the suffix built by Logger (logger.py 51). Names are lists of characters; a directory is an association list from stems (file names without .npy) to the saved values.
* `LqrModel.v`: Model of the LQR solver (/repo/mushroom_rl/solvers/lqr.py). [n] is the dimension of the states, [m] of the actions. Floats are real numbers; np.linalg.solve and np.linalg.inv are arguments of the definitions, their contracts are hypotheses of the theorems. The batch dimension of the states is one.
* `Mat.v`: Finite sums, vectors and matrices over the reals as functions of the indexes. Used by the models of the LQR solver, of the MORE surrogate and of the Gaussian distributions.
* `MjModel.v`: MuJoCo environments (mushroom_rl/environments/mujoco.py) and their ObservationHelper (mushroom_rl/utils/mujoco/observation_helper.py). The simulator is an oracle: its data is an arbitrary state, or, for the helper, the list of the arrays get_state returns for the entries of the specification. Keys are numbers. An infinite limit is None.
* `MonModel.v`: Model of what is shown of a run: the callbacks that collect lists (callbacks/callback.py, collect_q.py, collect_max_q.py, collect_parameters.py), PlotDataset (callbacks/plot_dataset.py), the data buffers, plots and window (utils/plots), mean and confidence (utils/plot.py), the video recorder (utils/record.py), the 2D viewer (utils/viewer.py) and the console logger (core/logger/console_logger.py). None is a raised exception. Qt, pygame and cv2 are not modelled, only the calls made to them.
* `MoreModel.v`: The dual function of MORE (mushroom_rl/algorithms/policy_search/black_box_optimization/more.py); the closed-form update is in GaussModel.
* `MpModel.v`: Model of MultiprocessEnvironment (/repo/mushroom_rl/core/multiprocess_environment.py) as a concurrent system: the parent process and one worker process per environment, talking through the two FIFO channels of a Pipe. Any process able to move may move; a run is an arbitrary interleaving.
* `NoiseModel.v`: Policies with an internal process: OrnsteinUhlenbeckPolicy and ClippedGaussianPolicy (/repo/mushroom_rl/policy/noise_policy.py), the time of ProMP (policy/promps.py) and DMP (policy/dmp.py). Floats are reals and array operations act on every component, so an action is a function of the component. The regressors are arbitrary functions, random draws are arguments.
* `OptModel.v`: Model of the optimizers (/repo/mushroom_rl/rl_utils/optimizers.py). Vectors of dimension [d] are functions on indexes; floats are real numbers. A call returns the new parameters and the content of the caller's gradient array afterwards (grads *= -1 works in place).
* `ParamModel.v`: Model of [Table] indexing (/repo/mushroom_rl/approximators/table.py 25-43), [Parameter], [LinearParameter], [DecayParameter] (/repo/mushroom_rl/rl_utils/parameters.py) and of the variance parameters (/repo/mushroom_rl/rl_utils/variance_parameters.py). Simplifications: a table is the list of its entries in C order and an index is the position in that list; an index outside the table is an IndexError ([None]); indices that select a whole row are not modelled; visit counts are natural numbers; [n ** exp] is [Rpower].
* `PbModel.v`: Model of the PyBullet environment base class: environments/pybullet.py, utils/pybullet/index_map.py, utils/pybullet/contacts.py, utils/pybullet/joints_helper.py, utils/pybullet/observation.py. The simulator is arbitrary: a state type with reading functions. Names are numbers; a contact name `a<->b` is a number with its two halves. Viewers and file loading are not modelled.
* `PgModel.v`: Episodic policy gradient algorithms, mushroom_rl/algorithms/policy_search/policy_gradient/*.py. Vectors of policy weights are functions of the component index: every numpy operation of these files is componentwise. A sample carries what the algorithms read from it: the score [policy.diff_log(x, u)], the reward, the critic features of the state and the last flag. The policy is not changed while the dataset is parsed, hence the scores are functions of the samples.
* `PolicyModel.v`: Model of the value-based policies (/repo/mushroom_rl/policy/td_policy.py). Simplifications: the approximator's prediction for the state is a non-empty list of real numbers [q], one per action; random draws are arguments; the root finder of Mellowmax is an oracle.
* `PpoClipModel.v`: The clipping range of PPO under a scheduled eps_ppo (/repo/mushroom_rl/algorithms/actor_critic/deep_actor_critic/ppo.py 96-101, ppo_bptt.py 153-160, /repo/mushroom_rl/algorithms/policy_search/black_box_optimization/eppo.py 56-63, /repo/mushroom_rl/utils/minibatches.py 4-43). Only what reads and advances the parameter is kept; the number of epochs and the batch size are numbers. PpoModel.v has the loss these bounds go into.
* `PpoModel.v`: Model of the clipped policy optimisation agents: PPO (/repo/mushroom_rl/algorithms/actor_critic/deep_actor_critic/ppo.py), A2C (a2c.py), ePPO (algorithms/policy_search/black_box_optimization/eppo.py) and of the agent preprocessors (core/agent.py). Weights, states, actions, preprocessors and critics are of any type. The policy is given by its log-probability, the optimizer step is any function of the weights and of the loss (a loss is a function of the weights, torch differentiates it). Tensors are lists of rows; a torch standard deviation of fewer than two numbers is NaN (None).
* `RainbowModel.v`: Composition: [Core.learn] (CoreModel.v) driving a [Rainbow] agent. Cited code: algorithms/value/dqn/rainbow.py 122-166 (fit), abstract_dqn.py 127-132 (_update_target), rl_utils/replay_memory.py 301-365 and 469-599. Simplifications: as in CorePerModel.v. One call of approximator.fit is an arbitrary function [train] of weights, batch and sample weights; the network is given by three arbitrary functions of the weights: the action values of a state ([qval]), the distribution for an action given by its number ([dist]) and for an action of the dataset ([dista]). A projection that would write outside the atoms is recorded in [r_ok].
* `ReplayModel.v`: Model of [ReplayMemory] (/repo/mushroom_rl/rl_utils/replay_memory.py 8-164). Simplifications: states, actions and policy states are abstract types; rewards and gamma are real numbers; the backing [Dataset] of [max_size] preallocated rows (core/dataset.py 77-127, core/_impl/numpy_dataset.py 6-133) is the list of its written rows, with an explicit failure when a row beyond the allocation would be written.
* `ResetModel.v`: Which arrays the classic environments create, keep and overwrite: mushroom_rl/environments/{puddle_world,ship_steering,lqr,inverted_pendulum,cart_pole, segway,car_on_hill,finite_mdp,grid_world}.py, reset and step. Arrays are cells of a heap; an address stands for the Python object. The new state computed by a step (dynamics, integrator, random draws) is an arbitrary function of the old one, followed by the corrections the code applies. Rewards, flags and array data types are left out (a state array of integers would truncate the corrections).
* `ResumeModel.v`: Saving an agent, loading it and going on training with [Core]. Cited code: core/serialization.py 39-139 (save_zip, load_zip), core/agent.py 30-69 (attributes of an agent; [next_action] is registered with 'none'), algorithms/value/td/td.py 12-26, algorithms/value/dqn/abstract_dqn.py 68-81, algorithms/actor_critic/deep_actor_critic/ddpg.py 77-90, rl_utils/replay_memory.py 39-47 and 162-164 (ReplayMemory: rows, index and flag are saved on a full save only; a memory loaded without them is reset), 290-297 and 463-466 (SumTree: index, flag and priorities are always saved, the rows come back as an empty dataset whether or not the save was full, see C21). Simplifications: as in CoreSarsaModel.v, CoreReplayModel.v and CorePerModel.v; weights, optimizer states, target networks, schedules and the internal state of the policy come back as they were (C20, C76, C95, C109); the random generator of the process goes on.
* `SacModel.v`: Off-policy deep actor-critic agents (mushroom_rl/algorithms/actor_critic/deep_actor_critic: deep_actor_critic.py, sac.py, ddpg.py, td3.py). Networks, their optimizers and the sampled batches are oracles; weights are vectors of reals where soft updates act on them.
* `SampModel.v`: A world for [Core] (file CoreModel.v) in which the environment and the policy draw from random generators. Each of the two generators is a tape of independent draws, whose head is removed by every use: one entry of the environment's tape by [reset] and by [step], one entry of the policy's by [draw_action]. The entries are turned into an initial state, an outcome or an action by arbitrary functions [init], [out] and [pol]; the memory of the agent is of any type, and what [fit] does with it is an arbitrary function of the rows it gets (the random numbers of a fit, if any, are part of that memory). Simplifications: the environment is fully observed and the agent has no core preprocessors; numpy's single global generator, which the environments and the numpy policies share, is represented by two, and the numbers it yields are taken to be independent draws from a finite distribution. [de] and [da] stand for a draw from an empty tape; the theorems use tapes that are long enough.
* `SaveModel.v`: Which attributes of the Serializable classes are registered for saving and which ones their methods read: the 130 classes of mushroom_rl that derive from Serializable (core/serialization.py). Each entry of the table lists, for one class: - the attributes that its constructor (or that of a base class) creates and that some method other than the constructor reads (methods of base classes included unless overridden); the constructor itself does not run when an object is loaded (serialization.py 115); - the attributes registered with _add_save_attr by the class and its base classes, with the method of the last registration; [Dyn] is a registration whose method is chosen from the class of the value (serialization.py 266-271); - the attributes assigned by _post_load and the methods it calls. The table was read off the source text. Attributes read only by other classes are left out, except DatasetInfo.device (core/dataset.py 107, 108, 119). Values are opaque.
* `SerialModel.v`: Model of [Serializable] (/repo/mushroom_rl/core/serialization.py). Simplifications: attribute values other than Serializable objects and lists of them are opaque leaves of type [V]; writing a value with pickle, numpy, torch or json and reading it back is an arbitrary function [rt] of the format and the value (json turns tuples into lists, for instance), except for the pickled config file, which is read back unchanged. Path segments are constructors instead of the strings "att.method", "i" and "config" joined by "/"; attribute names are Python identifiers and contain neither "." nor "/", so the strings determine the segments. Python exceptions are [None].
* `SimModel.v`: Model of the wrappers of Habitat (environments/habitat_env.py), iGibson (environments/igibson_env.py) and Isaac (environments/isaac_env.py, utils/isaac_utils.py). The simulators are oracles; what is modelled is the data passed to and from them. None is a raised exception.
* `SolveModel.v`: The solver of the Car-on-Hill environment (/repo/mushroom_rl/solvers/car_on_hill.py) and the numerical gradients (/repo/mushroom_rl/utils/numerical_gradient.py). Floats are reals. The environment is [coh_step] of EnvModel.v: the integrator is an arbitrary function of the state and of the force.
* `SpaceModel.v`: Spaces, MDP descriptions and the registry of environments (mushroom_rl/rl_utils/spaces.py, core/environment.py).
* `SumTreeModel.v`: Model of [SumTree], [PrioritizedReplayMemory] and [SequenceReplayMemory.get] (/repo/mushroom_rl/rl_utils/replay_memory.py 166-599). Simplifications: as in ReplayModel for the stored rows; the numpy array [_tree] is a list of real numbers; powers with real exponents are [Rpower] (used for positive bases only); the numbers drawn by np.random are arguments.
* `Td3NoiseModel.v`: The target smoothing noise of TD3 under scheduled parameters (/repo/mushroom_rl/algorithms/actor_critic/deep_actor_critic/td3.py 46-47, 86-87, ddpg.py 97-103, /repo/mushroom_rl/rl_utils/parameters.py 7-11). Parameters are objects: [heap] holds them, and the agent keeps one reference for the standard deviation and one for the clip, which to_parameter lets coincide. [z] are the standard normal draws behind np.random.normal(scale=...), one per coordinate of the batch of actions.
* `TdModel.v`: Model of the tabular and linear temporal-difference algorithms (/repo/mushroom_rl/algorithms/value/td, approximators/table.py, approximators/ensemble_table.py, rl_utils/eligibility_trace.py). A table is a list of rows, one per state, with one real number per action. Simplifications: states and actions are their indices (a[0] of the 1-element arrays); the value returned by the learning-rate parameter at an update is an argument [al]; draws of the policy and of the random generator are arguments; floats are real numbers.
* `TfeatModel.v`: Torch feature tensors (mushroom_rl/features/tensors) and their use by TorchFeatures (features/_implementations/torch_features.py), next to BasisFeatures (basis_features.py). A tensor module is the list of its feature functions and a flag that says whether its forward drops a last dimension of size one.
* `TorchModel.v`: Model of the torch utilities (/repo/mushroom_rl/utils/torch.py) and of TorchApproximator (/repo/mushroom_rl/approximators/parametric/torch_approximator.py). A parameter of a network is its shape with its entries in row-major order; a network is the list of its parameters in the order of [parameters()]. Devices and data types are not modelled, except that [heap] below distinguishes a tensor that shares the memory of the vector it was made from. In the fit loop the network with its optimizer is a value of any type, a batch loss is a real number or None when it is not finite.
* `TpolModel.v`: Torch policies (mushroom_rl/policy/torch_policy.py, recurrent_torch_policy.py, CategoricalWrapper of utils/torch.py) and the torch distributions with diagonal covariance (distributions/torch_distribution.py). Networks are oracles: their outputs are arbitrary vectors. Shapes are lists of sizes.
* `TrpoEntModel.v`: The entropy coefficient of TRPO as a parameter: every evaluation of the loss calls it (/repo/mushroom_rl/algorithms/actor_critic/deep_actor_critic/trpo.py 101, 171, 186-190), so the evaluations of one fit read successive values of its schedule. They are the [cs] of TrpoFitModel.v.
* `TrpoFitModel.v`: TRPO.fit as a whole, mushroom_rl/algorithms/actor_critic/deep_actor_critic/trpo.py 84-190: the routines of TrpoModel.v (conjugate gradient, step length) with the loss, the KL divergence and the Fisher matrix they are called with. The rows (preprocessed states, actions, normalised advantages, log-probabilities under the policy that acted) are computed as in PPO (trpo.py 85-98 and ppo.py 74-86 are the same lines), so that [fit_rows] of PpoModel.v is used. Weights are flat vectors of [d] components. The policy is given by its log-probability, its entropy and the KL divergence between two of its distributions; torch.autograd by the functionals [grad] and [hess]. Simplifications: max_kl, damping, tolerance and numbers of iterations do not change during a fit (the entropy coefficient may); [_log_info] (trpo.py 192-211) only writes a message and is left out. A step direction that contains NaN or inf makes the divergence NaN, so that no candidate is accepted; policies that check their arguments (BoltzmannTorchPolicy builds torch.distributions.Categorical with validation, GaussianTorchPolicy switches it off, torch_policy.py 218) raise instead: [nan_ok].
* `TrpoModel.v`: TRPO: conjugate gradient and line search, mushroom_rl/algorithms/actor_critic/deep_actor_critic/trpo.py. Flat parameter vectors of [d] components are functions of the index. The Fisher-vector product is multiplication with a matrix [M]: the Hessian of the mean KL divergence at the current parameters plus the damping.
* `UtilModel.v`: Model of running statistics, preprocessors, minibatches and angles (/repo/mushroom_rl/rl_utils/running_stats.py, rl_utils/preprocessors.py, utils/minibatches.py, utils/angles.py). Statistics are modelled for one component of the data (the code works component-wise); floats are real numbers.
* `VecBbModel.v`: Composition: [VectorCore.learn] (VecLearnModel.v) driving a [BlackBoxOptimization] agent. Cited code: algorithms/policy_search/black_box_optimization/black_box_optimization.py 58-103 (episode_start_vectorized, fit, set_deterministic), context_builder.py 4-13, policy/vector_policy.py 22-35 and 47-74 (draw_action, set_weights, get_weights), core/vectorized_core.py 106-131 and 177-202, core/dataset.py 557-560, 563-583, 634-645 (theta lists). [VectorCore._reset] calls episode_start_vectorized after reset_all with the mask of the environments that were reset and the buffer of observations, and the next thing that happens is draw_action on that buffer. VecLearnModel has no such call; here every observation carries a mark that says whether it was made by a reset, so that the mask is known when the actions are drawn, and the two calls are made there. A call of episode_start_vectorized with an empty mask changes nothing for a policy without a state. Simplifications: those of VecLearnModel; the policy is a VectorPolicy of the right size from the beginning (the agent makes it at the first call; VpolModel.v is about its size); the context builder works row by row; the dataset's list of parameters is kept with the agent; an exception clears [b_ok] and the model goes on.
* `VecCoreModel.v`: Model of [VectorCore] and [VectorizedCoreLogic] (/repo/mushroom_rl/core/vectorized_core.py, /repo/mushroom_rl/core/_impl/vectorized_core_logic.py), with the row buffer of [VectorizedDataset] (/repo/mushroom_rl/core/dataset.py 544-649, /repo/mushroom_rl/core/_impl/numpy_dataset.py). What the environments and the agent compute is irrelevant to the schedule except for the absorbing flags. They are an arbitrary oracle [absb t j]: "environment j reports an absorbing state at iteration t". A transition is identified by its iteration and environment. Uninitialised memory ([np.empty]) is an arbitrary oracle too.
* `VecInfoModel.v`: ExtraInfo with several environments (core/extra_info.py, n_envs > 1) and the step information of a VectorizedDataset (core/dataset.py 545-649). The step information of one step is a list with the dictionary of every environment (as MultiprocessEnvironment returns it) or a dictionary whose values are numbers or arrays with one entry per environment. As in ExtraModel the entries of a key are opaque values, so trailing dimensions and the shape mapping are left out; one array backend; exceptions are [None]. [none] is the filler of the backend, [junk] the content of uninitialised arrays. Simplified: an array of another length than the number of environments is an error (numpy broadcasts one of length 1). The samples of the dataset are opaque; the allocation of its mask array is the subject of VecCoreModel.
* `VecLearnModel.v`: Composition: [VectorCore] (VecCoreModel.v: schedule, masks, buffers) with environments that have states, an agent that draws a batch of actions, and a fit that changes the agent. Cited code: core/vectorized_core.py 42-69 (learn), 100-138 (_run), 140-175 (_step), 177-205 (_reset); core/multiprocess_environment.py 95-133 (reset_all, step_all); core/dataset.py 590-632 (flatten). The schedule is that of VecCoreModel: its transitions are cells (iteration, environment, last flag), here replaced by the values stored at that place. In contrast to VecPreModel the replies of the environments and of the agent are not given beforehand: they depend on the states that the run itself produced. Simplifications: no core preprocessors (C100 says what happens with them), so that the core's [_state] is the buffer of the environments; policies without a state of their own; no parameters theta; episode_start_vectorized leaves the agent as it is (agents with such a policy, agent.py 106-133); rendering, recording and callbacks left out. The values stored for an environment that does not take part in an iteration are masked out; they are [None] here, and reading one would make the model fail.
* `VecPpoModel.v`: Composition: [VectorCore] (VecLearnModel.v) driving PPO and A2C (PpoModel.v, CorePpoModel.v). Cited code: core/agent.py 80-103 (draw_action on a batch of states, one per environment); policy/torch_policy.py 38-43 (a batch of actions, one independent draw per row); algorithms/actor_critic/deep_actor_critic/ppo.py 73-107, a2c.py 59-75 (fit). The simplifications are those of CorePpoModel.v and VecLearnModel.v; the draws are numbered, also those for environments that do not take part in the step.
* `VecPreModel.v`: The observations and policy states of a VectorCore run (core/vectorized_core.py 100-231) with the environments' buffer of MultiprocessEnvironment (core/multiprocess_environment.py 92-136), the core preprocessors of the agent, and MinMaxPreprocessor on a batch (rl_utils/preprocessors.py 130-141). The schedule (masks, last flags, fits) is that of VecCoreModel. In one run the replies of the environments are a function of the iteration, the environment and the action: arbitrary oracles [rst] and [stp]; so are the agent's draws and the initial policy states. The list of core preprocessors with its statistics is a function [prep] on the value passed through it: an array with one entry per environment, or the pair that reset_all returns; [None] is an exception. Simplified: rewards, parameters theta and rendering are left out; unpacking an array with two entries into (state, episode_info) is taken to be an error.
* `VecRecModel.v`: Recording videos with VectorCore (core/vectorized_core.py 37-41, 140-175, 204-213) over the environments of MultiprocessEnvironment (core/multiprocess_environment.py, render_all), with one VideoRecorder (utils/record.py) per environment. Frames are opaque. The file system maps names to the frames of the last writer opened under that name; what two writers open at the same time under one name leave in the file is not modelled, only the names are compared.
* `VecReplayModel.v`: Composition: [VectorCore.learn] (VecLearnModel.v) driving agents with a replay memory: those of CoreReplayModel.v (DDPG, TD3, SAC and DQN have their fit) and Rainbow (RainbowModel.v). Cited code: core/vectorized_core.py 42-138; ddpg.py 92-115, sac.py 264-295, abstract_dqn.py 83-101, rainbow.py 122-166 (fit); core/agent.py 68-104 (draw_action on the batch of states). Simplifications: those of the three models; the action of a batch of states is an arbitrary function with one action per environment.
* `VecSampModel.v`: [VectorCore.evaluate] (core/vectorized_core.py 71-98, 100-138) with values, and environments and a policy that draw from random generators. Every environment has a generator of its own: a tape of independent draws, one entry of which is used by [reset] and by [step] (as in SampModel.v). The policy is asked once for the whole batch of states and uses one entry of its tape for every row of the batch, also for the environments that do not take part in the step (vectorized_core.py 145-150). Simplifications: those of VecLearnModel.v and SampModel.v; evaluate without [initial_states] and not quiet, the policy's [episode_start] without effect.
* `VpolModel.v`: Model of VectorPolicy (/repo/mushroom_rl/policy/vector_policy.py). Policy objects live in a heap; the vector is a list of references, so that aliasing of entries is visible. The wrapped policy is arbitrary: [P] is the content of a policy object, [draw] its draw_action (which may advance the object, for instance its random generator), [rst] its reset, [setw]/[getw] its weight accessors.

Not modelled at all:

* Drawing itself: Qt, pygame, cv2 and the MuJoCo viewer (the data handed to them is modelled in
  `MonModel.v`).
* The internals of `torch.nn` modules other than those named above, autograd and the optimizers of
  torch. Networks are arbitrary functions of weights and input.
* The external simulators (gym, gymnasium, Atari, dm_control, minigrid, Habitat, iGibson, Isaac,
  MuJoCo, PyBullet). Their wrappers are modelled over arbitrary simulators, except for the parts
  named in the manifest.
* Device placement and dtype conversion, except where a theorem names it.

## Findings: where the code departs from what a user would expect

Found while transcribing. Those with a theorem are marked with its name; the others are
observations from reading, and no theorem depends on them.

Core, datasets, memories
* `VectorCore.evaluate` after `learn` keeps the old fit schedule (C08) and its buffers can lose or duplicate samples when the number of environments does not divide the schedule (C10).
* `Dataset` negative indices, `ListDataset.__add__` and masked views (C12); `ListDataset.clear` keeps the policy states; `from_array` drops policy states; `TorchDataset` does not save its mask.
* `SumTree` descends into one of two equal siblings without subtracting the mass it skips, so rows below tied inner nodes are not sampled in proportion to their priorities and unwritten rows can be returned (C18, `sumtree_proportional_with_ties_refuted`).
* `SequenceReplayMemory` mixes old and new samples once its buffer has wrapped (C16).
* `CollectDataset` merges episodes (C55); `ExtraInfo` loses parsed steps on copy, fails on new keys after a parse and ignores steps without keys (C66). `Dataset.append_episode_info` does not exist on `ExtraInfo`, and `Core` never appends episode information.
* `MultiprocessEnvironment.seed` gives the same seed to every worker; `VectorCore._reset` preprocesses the pair (state, info).
* A logger reopened without a seed in a directory with seeded files continues their series; appending resets the best score (C64).

Value methods
* `target_update_frequency` counts fits, and the soft-update parameter advances once per target model (C39).
* `QuantileDQN.tau_hat` is a class attribute shared by all agents; `categorical_loss` with reduction 'sum' returns a mean and with 'mean' raises.
* LSPI bootstraps from absorbing states (C65); DoubleFQI drops the last sample of an odd dataset; a second `fit` of BoostedFQI raises (C54).
* `LinearParameter`'s first value is already one step along the line; `compute_gae` ignores the absorbing flag of steps that are not last; Monte Carlo advantages raise on a one-step dataset.

Policy search and actor-critic
* MORE counts mixed products twice (C52). RWR and REPS modify the array of returns in place. Weighted maximum likelihood with a single sample divides by zero.
* The contexts of black-box agents are built from raw states when sampling and from preprocessed states when fitting (C67); ePPO's old density ignores the context (C68).
* PPO, TRPO and ePPO produce NaN on a single transition; the first PPO ratio is not 1 when a running standardisation is updated in between (C68). A2C and the other deep agents fit on states their preprocessors have not seen (C69).
* `StochasticAC` carries traces across episodes inside one fit and advances the trace parameter twice per step (C70). `COPDAC_Q` raises for more than one action dimension with a linear policy (C71).
* TRPO reads `max_kl` with a call that advances the parameter; a zero gradient gives NaN. SAC's log-probability omits the logarithm of the action scaling.
* Optimizers multiply the caller's gradient by -1 in place, and integer learning rates raise (C48). `set_parameters` of the torch distributions keeps the caller's array.

Policies and features
* `VectorPolicy.set_n` has its conditions inverted and stateful policies cannot be drawn from (C49). `OrnsteinUhlenbeckPolicy` passes the output shape as policy-state shape and hands out its own initial array.
* `ProMP.draw_action` and `__call__` raise a TypeError; the constructor's duration is one step longer than `set_duration`'s; `DMP` has an incompatible `draw_action`, drives its phase with the action and returns its internal array (C73).
* CMAC inputs outside the tilings give NaN and targets of shape (N, 1) raise; ensembles on torch have no variance for min/max (C63). Tiles and basis features drop the batch dimension of a batch of one.
* `MinMaxPreprocessor` on a batch indexes rows instead of columns and changes its input (C59).

Environments and solvers
* `reset(state)` overwrites the caller's array for the pendulum, cart-pole and Segway when an angle has to be normalised (C93); Segway's bounds are swapped; ShipSteering with `n_steps_action=0` raises (C43, C44, C62).
* The LQR value gradient raises for more than one state (C50).
* `solve_car_on_hill` is one step off when all action sequences fail, and never ends with `max_k` below 2 on dynamics that stay in the valley (C74). `numerical_diff_function` truncates to integers for integer parameters (C75).

Torch networks, policies and features
* `set_weights` accepts vectors that are too long, leaves the network half written when it raises on a short one, and shares memory with the vector (C76). The fit loop need not end with `epsilon = 0`; the early-stopping loss is computed with dropout active (C77).
* The dueling network with `avg_advantage=False` always raises, since `max(1)` of a tensor returns a pair; quantiles are a class attribute shared by agents and a single quantile changes the shape of the loss (C78).
* The entropy of the recurrent Gaussian policy ignores the clamp of its log standard deviation, its log-probability rejects one-dimensional actions and its bounds are not saved (C82, C95).
* Feature tensors with one centre or one feature have another shape, and the von Mises grid misses its period (C83).

Simulator wrappers
* Atari: frames after a game over inside a skip, game over during the no-ops, truncation, and resets after a lost life (C84). Wrappers of gym, gymnasium, minigrid and dm_control: see the `_refuted` theorems of C85. `Box` and `Environment.make`: C86.
* MuJoCo: MultiMuJoCo resets, removed observations and collision forces (C87). PyBullet: limits and contact flags (C88). Air hockey and ball in a cup: C89.
* Habitat, iGibson and Isaac: images that are not square, the horizon of iGibson ends in an absorbing state, `render` after `reset`, masks with one environment (C92).

Backends, callbacks and displays
* Medians of an even number of values differ between numpy and torch, `from_list` of one tensor raises, three-argument `where` returns None, `convert` to an unknown target returns an exception class (C90).
* Plotted returns of a run that stopped inside an episode, windows with the default tracking flag, recording a run without frames, `torque_arrow` changes the array it is given, two loggers of the same name (C91).

Saving and loading
* After a load the policy of `COPDAC_Q` is another object than the one that learns, and the temperature of `Mellowmax` is computed from a stale copy (C94).
* Attributes that methods read and no class registers: `AdamOptimizer._eps`, the regressors of `MORE`, `PPO_BPTT._truncation_length`, the masks of the list and torch datasets, the fields of `ExtraInfo`, `DatasetInfo.device` (C95). `AbstractDQN` registers `_n_approximators`, which it never assigns.
* `ePPO` saves its optimizer but does not relink it after a load: the loaded agent steps copies of the parameters that never get a gradient, so no fit changes its distribution (C109).
* A DQN agent with a prioritised memory cannot be trained further after a load: with a full memory the first fit raises, otherwise the fits read rows that were never written or train on copies of one transition (C112).

Several environments, continued
* When `n_steps_per_fit` cuts the samples the step information keeps its full length, and a slice of a flattened dataset, as well as the dataset itself afterwards, has no information (C96).
* Recording raises `IndexError` as soon as an environment that is switched off precedes a running one; recorders with a tag, or built within one second, write to one file (C97).
* `VectorCore._reset` hands the pair (state, info) to the core preprocessors and then processes the state a second time: preprocessors that compute with arrays raise at the first reset, statistics are updated more often than once per step, and `MinMaxPreprocessor` indexes rows instead of columns on batches (C100).

Policy gradients and on-policy data
* When `n_steps_per_fit` is not a multiple of the number of environments, `VectorCore` hands each fit transitions drawn before the previous fit, so on-policy agents learn from the data of an older policy (C105).
* The baselines of `REINFORCE` and `GPOMDP` are computed from the episodes they are subtracted from: the gradients are biased, by one half with two episodes of a two-armed bandit (C106).
* With `n_steps_per_fit` the policy-gradient agents treat the end of an episode cut by a fit as an episode of its own; with one episode per fit every fit raises (C108).
* In environments with a horizon the Monte Carlo targets of A2C run across the end of truncated episodes; with `n_steps_per_fit=1` PPO becomes NaN and A2C raises at the first fit (C110).
* A DQN agent with a prioritised memory trained by Core can train on a slot of the memory that was never written, in its first training fit (C111).

Small slips without effect on the results
* `Segway.render` computes `start[0] % 5 * self._l` where `%` binds as tightly as `*` (C98).
* The dual of MORE uses half of the constant term of the surrogate, which does not move its minimum (C99).
* A2C under VectorCore bootstraps the last transition of each environment from the first transition of the next one (C114).
* TRPO puts the weights back when its line search fails but not the agent preprocessors, so the acting policy can leave the trust region; a dataset with equal advantages gives a NaN step, on which policies that validate their arguments raise (C115).
* `GaussianCholeskyDistribution.con_wmle` minimises a function that is unbounded below within the bounds it passes, because `slogdet` drops the sign of a negative definite covariance (C116).
* C117: `PPO_BPTT._transform_to_sequences` slices `last[begin_seq - 1: i]` with `begin_seq = 0` in the first `truncation_length` rows, which is the empty slice `last[-1:i]`: a row that follows an episode end there is replayed on a sequence that joins both episodes, from the hidden state of the earlier one. Its old log-probability, its value and its ratio are then not those of the action taken (`bptt_joined_rows_refuted`).

* **Evaluation by steps is biased** (C118, `core_evaluate_steps_refuted`). `evaluate(n_steps=…)` returns a dataset whose last
  episode is in general unfinished; `compute_J` counts its partial return like a whole one, so the mean of `compute_J` is not an
  unbiased estimate of the expected return, as it is with `n_episodes`.
* **All environments of a `MultiprocessEnvironment` get the same seed** (C119, `shared_seed_variance_refuted`). `seed` sends one and the
  same seed to every worker, and `_env_worker` never reseeds (forked workers inherit the parent's generator). Environments that draw from
  equal streams produce equal episodes whenever the actions agree: averaging over N of them does not reduce the error as N independent
  episodes do.
* **eNAC with a discount factor does not follow the natural gradient of the discounted return** (C120, `enac_discounted_refuted`).
  `_step_update` multiplies the score of step t by gamma^t as it does with the reward; in the least squares fit the two discounts cancel, and
  decisions late in an episode are changed as much as the undiscounted problem asks. With gamma = 1 the direction is the natural gradient.
* **eNAC accepts fewer episodes than unknowns** (C120, `enac_few_episodes_refuted`). `PolicyGradient.fit` only asks for two episodes; with fewer
  episodes than weights plus critic features `pinv` returns the smallest solution, which depends on how the policy is parametrised.
* **FQI with a linear approximator can diverge** (C121, `fqi_linear_diverges_refuted`). With features that are not a partition of the states the
  least squares projection is not a contraction; two states with the features 1 and 2 and gamma > 5/6 suffice. Nothing in `FQI` or
  `LinearApproximator` bounds or detects it.
* **FQI values of pairs without data are 0, not unknown** (C121, `fqi_table_fit`). An action with samples somewhere gets the value 0 in every part
  where it has none, which is optimistic when rewards are negative; an action without any samples keeps its initial weights.
* **LSPI invents values for actions without data** (C122, `lspi_untried_refuted`). When some (features, action) column has no samples `fit` falls back
  to `pinv`, whose smallest solution spreads the residual over the weights of untried actions: one state, one sample of action 0 with reward -1
  and gamma = 0.9 gives action 1 the value 90/181 > 0, and the loop stops there.
* **BoostedFQI's ensemble predicts the mean of its increments by default** (C123, `boosted_mean_refuted`). The value function of boosting is the sum of
  the models, but `Ensemble` averages unless `prediction='sum'` is passed and BoostedFQI does not set it: with as many models as iterations (which the
  constructor asserts) the predicted values are at most 3K/n, whatever the rewards. The greedy actions are unaffected.
* **DoubleFQI can oscillate for ever** (C123, `double_table_refuted`): on eight samples of a two-state environment its predictions have period two for
  every gamma > 0, and the greedy action alternates with them.
* **Rainbow loses windows at fit boundaries and may never learn** (C124, `rainbow_never_learns_refuted`, `rainbow_lost_windows`): n-step
  windows are formed inside the dataset of one fit, so with `n_steps_per_fit < n_steps_return` the memory stays empty and the weights never
  change; with longer fits the `n_steps_return - 1` windows across each boundary are dropped, and so are the ones at the end of each episode.
* **Rainbow under VectorCore learns nothing unless every environment makes n_steps_return steps between fits** (C125, `vec_rainbow_never_learns_refuted`): the flattened dataset of a fit holds k / n steps of each of the n environments, each part closed by `last`; with k / n < n_steps_return no window is ever stored, although k itself may be larger, and the weights stay the initial ones for every network.
* **No black-box algorithm can be trained with VectorCore** (C126, `vec_bb_never_starts_refuted`, `vec_bb_deterministic_refuted`): `episode_start_vectorized` calls the context builder with `**episode_info`, but `reset_all` of the library's vectorised environments returns a list of dictionaries (TypeError); with a mapping, the default builder returns None, which is then indexed by the mask (TypeError); a contextual agent set to deterministic applies the mask twice (IndexError unless all environments start together). The example examples/vectorized_core/segway_bbo.py runs into the first.
* **Double Q-learning can fail where Q-learning cannot** (C127, `double_q_convergence_refuted`): with gamma = 0.9, a single state and rewards 1 and 0, an order of coin flips and actions in which every entry of both tables is updated at least once every 12 steps with learning rate 1 keeps all estimates at 2.71 or less for ever, while the optimal values are 10 and 9.  `QLearning` converges under the same conditions (C101).  Fair coins produce this order with probability zero; the point is that visiting every pair is not enough of a guarantee for this algorithm.
* **A fixed exploration keeps ExpectedSARSA away from the optimal values** (C129, `esarsa_fixed_exploration_refuted`): expected of an on-policy method, stated because nothing in the API hints at it; with epsilon vanishing it converges.
* **QLambda may fail to converge where Q-learning converges** (C130, `q_lambda_convergence_refuted`): the traces survive exploratory actions (Watkins' algorithm, which the docstring cites, cuts them), and with gamma = 0.9, lambda = 1 and replacing traces an infinite run on a deterministic environment keeps returning to a value of 17 for an action worth 18.
* **PGPE with n_episodes_per_fit = 1 never learns** (C132, `core_pgpe_one_episode_refuted`): with one episode the variance-minimising baseline is the return of that episode, so the gradient handed to the optimizer is zero at every fit.  `REINFORCE`, `GPOMDP` and `eNAC` raise in the same situation (C108); `PGPE` runs silently with its initial distribution.
* **RWR and REPS with n_episodes_per_fit = 1 produce NaN** (C132, `core_wmle_one_episode`): the normaliser Z of `mle` is 0 for one sample, so the first fit replaces the standard deviation of a `GaussianDiagonalDistribution` by 0/0 without an error.
* **Views of recurrent datasets can carry unwritten policy states** (C133, `view_negative_refuted`): `get_view` indexes the whole array of policy states but only the written part of the other columns, so on a dataset that is not full (the usual result of `evaluate(n_episodes=...)`) `dataset[-m:]` pairs the last transitions with uninitialised memory.
* **Dataset.from_array drops the policy states** (C133, `flatten_policy_states_refuted`): they are checked and then not passed on, so `PPO_BPTT` cannot be fitted under `VectorCore`.
* **A view has no parameter list** (C133, `view_add_refuted`): `get_view` leaves it `None`, and `+` raises with a view on either side.
* **EpsGreedy mixes row numbers into the greedy actions when the prediction has a batch dimension** (C134, `eps_greedy_one_state_refuted`, `eps_greedy_batch`): `np.argwhere(...).ravel()` on a 1 x n prediction is `[0, a]`, so half of the greedy draws are action 0.  The networks of `examples/atari_dqn.py` return such a prediction for a single state (`h.view(-1, 3136)`), read from the source, not run.  On a batch the action can be a row number that is no action, and `MultiprocessEnvironment.step_all` raises on the one-dimensional array.
* **One Parameter object for `noise_std` and `noise_clip` of TD3 runs at double speed** (C135, `td3_shared_parameter_refuted`): `to_parameter` keeps the object, and every fit calls it twice.  With separate objects the two readings of the clip agree (`td3_noise_schedule`).
* **A schedule for `eps_ppo` advances once per minibatch** (C136, `ppo_clip_schedule_ends`): over `n` steps it ends after `n / (epochs * minibatches)` fits, which the documentation of PPO does not say.
* **TRPO's line search compares losses under different entropy coefficients** (C137, `trpo_entropy_decay_refuted`, `trpo_entropy_growth_refuted`): `_compute_loss` calls `self._ent_coeff()` each time, so with a falling schedule good steps are rejected and with a growing one bad steps are accepted.
* **ConstrainedREPS reads `eps` twice per update** (C138, `creps_schedule_ends`): a schedule runs at double speed and the dual function and the fit of one update use different bounds.

## Assumptions of every theorem (`Print Assumptions`)

Closed under the global context (no axiom):

* ApproxProps: linear_weights_roundtrip, action_weights_roundtrip
* AuxDsProps: dataset_columns, view_full, view_negative_refuted, flatten_policy_states_refuted, core_policy_states, view_add_refuted
* BackendProps: backend_flatten, backend_pack, backend_from_list, backend_from_list_rows, backend_from_list_refuted, backend_where_indices, backend_where_refuted, backend_squeeze, backend_squeeze_refuted, backend_convert, backend_convert_refuted, backend_agent_env, default_env_mask
* BatchProps: dfqi_split
* BbAgentProps: bbo_vectorized_mean_refuted
* BpttProps: bptt_sequences_partial, bptt_first_rows_refuted
* CoreProps: core_learn_steps_schedule, core_learn_fits_partition_samples, core_learn_episode_schedule, core_learn_episode_budget_exact, core_learn_step_budget_episode_fits, core_evaluate_steps, core_evaluate_episodes, core_evaluate_initial_states, core_learn_is_execution, core_evaluate_is_execution, core_learn_never_overflows, core_evaluate_never_overflows
* CoreSarsaProps: sarsa_family_textbook, sarsa_family_bootstrap, sarsa_family_evaluate
* DatasetProps: dataset_episodes_partition, dataset_episodes_length, dataset_init_states, dataset_select_first_episodes, dataset_refines_list_partial, dataset_append_full_raises, dataset_getitem_partial, dataset_iteration, dataset_negative_index_refuted, dataset_negative_index_empty_refuted, dataset_negative_slice_refuted, dataset_add_empty_left_refuted, list_dataset_refines_partial, list_dataset_add_refuted, list_dataset_policy_state_refuted, collect_samples, collect_whole_episodes_partial, collect_step_fits_refuted, collect_clean_refuted
* DqnProps: dqn_target_schedule, guarded_target_schedule, averaged_targets_recent
* ExtraProps: extra_info_rounds, extra_info_new_key_refuted, extra_info_copy_refuted, extra_info_add, extra_info_add_refuted, extra_info_view, extra_info_keys_separate, extra_info_collision_refuted
* FeatProps: polynomial_exponents_complete, fourier_coefficients_complete
* FmdpProps: parse_grid_cells_partial, taxi_moves, taxi_no_waiting, read_grid_start_goal, read_grid_rejects, grid_render_start_refuted
* GradProps: optimizers_follow_loaded_parameters, eppo_optimizer_without_load, eppo_loaded_never_learns_refuted
* GymProps: gym_horizon, gym_horizon_raises, gym_inner_limit_refuted, gymnasium_horizon, gym_reset_state_refuted, gym_reset_plain, minigrid_seed_refuted, dm_observation_size, dm_observation_parts, dm_limit_vector, dm_limit_pixels_refuted, gym_action
* HockeyProps: hockey_flags, hockey_double_flags, hockey_double_flags_refuted, puck_readings, pb_noise_refuted, cup_same_start
* LinkProps: loaded_agent_acts_on_learned, copdac_unsaved, copdac_loaded_refuted, mellowmax_unsaved, mellowmax_loaded_refuted
* LogProps: numpy_log_append, numpy_log_append_no_seed
* MjProps: mj_step_control, mj_controls, mj_collision, mj_force, multi_reset_fresh, multi_turns, multi_limits_refuted, multi_reset_protocol_refuted, env_id_distinct
* MonProps: collected_history, collect_q_history, cleaned_lists_kept, window_tracking, window_all, window_default_refuted, colors_enough, curve_colors_refuted, recordings, recording_empty_refuted, logger_writes, logger_independent, logger_same_name_refuted
* NoiseProps: promp_time_closed
* OnPolicyProps: core_fits_on_policy_data, vector_fits_off_policy_data_refuted
* PbProps: pb_names, pb_unknown_joint_refuted, pb_empty_actuation_refuted, pb_step_control, pb_reset_fresh
* PpoProps: ppo_epochs, ppo_single_transition_refuted, agent_preprocessors_update
* ResumeProps: core_learn_alike, core_evaluate_alike, learn_continues, learn_in_epochs, learn_continues_mid_episode_refuted, sarsa_resumes, sarsa_loaded_evaluates
* SaveProps: loaded_attributes_exist, loaded_values, loaded_forgotten, loaded_methods_agree, restored_classes, missing_attributes_refuted
* SerialProps: serial_roundtrip, serial_full_roundtrip_partial, serial_save_total, serial_marked_nested_refuted, replay_light_save, replay_full_save_refuted
* SimProps: sim_obs_shape, rearrange_split, rearrange_no_gripper_refuted, sim_absorbing, ig_horizon_refuted, sim_render_step, sim_render_reset_refuted, isaac_reset_mask, isaac_reset_one_refuted, isaac_done_mask, isaac_observation
* SpaceProps: box_arrays, box_mixed_refuted, box_shape_mismatch_refuted, box_consistent, mdp_sizes, make_dots, make_decimal_refuted, register_first
* SumTreeProps: sequence_window, sequence_wrapped_partial, sequence_arrays, sequence_batch
* TfeatProps: torch_features_value, single_center_refuted, single_feature_refuted
* TorchProps: torch_weights_roundtrip, torch_weights_short, torch_weights_size_refuted, gaussian_torch_weights, sac_policy_weights, target_sync_independent, optimizer_state_moves
* TpolProps: torch_draw_shape, torch_draw_shape_refuted, recurrent_log_prob_shape, recurrent_scalar_action_refuted, torch_gaussian_weights
* UtilProps: minibatches_partition
* VecBbProps: vec_bb_fits, vec_bb_never_starts_refuted, vec_bb_deterministic_refuted
* VecCoreProps: vec_learn_episodes, vec_evaluate_episodes_partial, vec_evaluate_after_learn_refuted, vec_learn_step_budget, vec_fit_data_exact_partial, vec_learn_episode_schedule_no_overflow, vec_buffer_overflow_refuted, vec_fit_samples_duplicated_refuted, vec_single_env_refuted
* VecInfoProps: vec_positions, vec_info_aligned, vec_info_cut_refuted, vec_info_view_refuted
* VecLearnProps: vec_learn_history
* VecPreProps: vec_transitions_chain, vec_preprocess_twice_refuted, vec_preprocess_raises_refuted, vec_preprocess_updates_refuted
* VecRecProps: vec_record_prefix, vec_record_mask_refuted, vec_record_paths_refuted, vec_record_names
* VpolProps: vector_policy_new, vector_draw_rows, vector_weights_roundtrip, set_n_no_effect, set_n_size_refuted, vector_draw_stateful_refuted, vector_reset_masked_rows_refuted

Axioms `ClassicalDedekindReals.sig_forall_dec`:

* AcProps: sac_fit_split, copdac_multi_action_refuted
* AdvProps: gae_episode_local
* ApproxProps: q_regressor_linear, q_regressor_cmac, action_regressor_predict, action_regressor_fit
* AtariProps: atari_history, atari_episode, atari_truncation_refuted, gymnasium_life_refuted, start_actions
* BbAgentProps: bbo_fit_contexts
* CoreSarsaProps: sarsa_bootstraps_next_action, sarsa_traces_bootstrap_next_action, sarsa_traces_evaluate
* CoreTdProps: exploration_possible
* DatasetProps: dataset_n_episodes_empty_refuted
* FeatProps: grid_rows_complete, tiles_features_indexes
* FmdpProps: chain_reward, parse_grid_last_row_refuted, grid_reward, taxi_reward, grid_world_step, grid_world_van_hasselt_step
* GaussProps: chol_parameters
* LogProps: numpy_log_append_no_seed_refuted
* MjProps: mj_observation, mj_limits, remove_obs_order, remove_obs_order_refuted, mj_reset_obs, multi_timestep_refuted
* MonProps: plot_windows
* MpProps: step_all_rows, reset_all_rows, session_sequential, call_result, call_progress, call_terminates, reset_all_initial_states_refuted
* ParamProps: windowed_variance_refuted
* PbProps: pb_names_refuted, pb_actions, pb_observation, pb_limits, pb_self_contact_refuted, pb_defined
* PpoProps: a2c_states
* RainbowProps: rainbow_window_count
* ReplayProps: replay_nstep_meaning, replay_add_keeps_caller_rewards_partial
* ResumeProps: replay_loaded_evaluates
* SacProps: ddpg_actor_schedule, soft_update_ensemble, ddpg_fit_order
* SerialProps: sumtree_save_refuted
* SimProps: sim_obs_shape_refuted
* SpaceProps: box_scalars
* SumTreeProps: sequence_wrap_refuted, sumtree_single_leaf_refuted
* TdProps: sarsa_on_policy
* TpolProps: torch_cholesky
* VecReplayProps: vec_windows_by_env, vec_replay_call

Axioms `ClassicalDedekindReals.sig_forall_dec`, `FunctionalExtensionality.functional_extensionality_dep`:

* AcProps: sac_credit, sac_avg_credit, sac_avg_shift, sac_two_episodes_refuted, sac_lambda_schedule_refuted, copdac_on_policy, copdac_step, copdac_linear_single
* AdvProps: gae_is_discounted_td_errors, gae_lambda_zero, gae_lambda_one, mc_advantage_partial, mc_advantage_boundary_refuted
* ApproxProps: linear_diff_gradient, cmac_predict_linear, action_diff_gradient, regressor_single_state_cmac_refuted, cmac_diff_refuted, linear_fit_least_squares, cmac_fit_average, cmac_fit_relax, cmac_fit_fixpoint, ensemble_aggregation, set_weights_shares_buffer_refuted
* AtariProps: frame_skip, frame_skip_stale_refuted, start_game_over_refuted
* BackendProps: backend_median, backend_median_refuted
* BatchProps: fqi_run, fqi_resume, fqi_error, dfqi_step, boosted_run, boosted_exact, boosted_overflow
* BbAgentProps: bbo_fit_pairs, bbo_context_preprocessed_refuted, bbo_step_fits_refuted, bbo_fit_update
* BboProps: mle_mean_hull, con_mean_hull, mle_Z_spec, mle_var_unbiased, chol_mle_psd, chol_con_psd
* ConvProps: optimal_unique, optimal_values_are_returns, q_learning_converges, expected_sarsa_converges, maxmin_q_converges, greedy_returns_optimal
* CoreBbProps: core_bbo_updates, core_bbo_keeps
* CoreDqnProps: dqn_learns_from_run
* CorePgProps: core_reinforce_updates, core_gpomdp_updates, core_enac_updates, core_policy_gradient_one_episode_raises, reinforce_step_schedule_refuted
* CorePpoProps: core_a2c_updates_partial, core_a2c_every_step_refuted, core_a2c_horizon_refuted
* CoreReplayProps: replay_agent_experiment, ddpg_learns_from_run, td3_learns_from_run, dqn_learns_from_experiment
* CoreSarsaProps: true_online_core_forward_view
* DatasetProps: dataset_compute_J, dataset_n_episodes_partial, dataset_compute_metrics
* DistProps: quantile_levels, quantile_loss_value, quantile_loss_zero, quantile_loss_gradient, quantile_target_mean, quantile_shared_levels_refuted, quantile_single_refuted
* DoubleConvProps: double_q_no_overestimation, double_q_converges, double_q_limits_optimal, double_q_convergence_refuted, double_q_basin, double_q_sweeps_converge
* DpProps: policy_iteration_terminates, policy_iteration_exact_refuted
* DqnProps: categorical_projection, categorical_projection_absorbing, soft_update_closed_form, soft_update_hull, dqn_target, double_dqn_target, averaged_dqn_target, maxmin_dqn_target, td3_target, sac_target
* EgBatchProps: eps_greedy_batch, eps_greedy_one_state_refuted, eps_greedy_vector_step_refuted, eps_greedy_call_disagrees_refuted
* EnacProps: core_enac_least_squares, enac_natural_gradient, enac_reparametrisation, enac_compatible_advantage, enac_population_natural_gradient, pinv_exists, enac_few_episodes_refuted
* EnsFqiProps: boosted_linear_is_fqi, boosted_mean_greedy, double_same_halves, double_table_over, double_table_near_optimal_partial, double_table_refuted, double_table_deterministic
* EnvProps: lqr_nonepisodic_box, lqr_reset_box, car_on_hill_outcome, through_gate_exact, through_gate_collinear_refuted, lqr_dynamics
* FeatProps: tile_index_range, tile_same_index, tile_index_onto, generated_tilings_cover_partial, generated_tilings_high_refuted, generated_tilings_displaced, polynomial_basis_value, grid_centers_uniform, action_features_block
* FmdpProps: chain_stochastic, grid_stochastic, grid_initial_distribution, taxi_stochastic, taxi_slip_reward_refuted, finite_mdp_step, finite_mdp_run, grid_world_wf
* FqiLinProps: fqi_table_fit, fqi_linear_diverges_refuted
* GlieProps: sarsa_no_overestimation, esarsa_eps_greedy_converges, sarsa_greedy_converges
* GymProps: minigrid_history, minigrid_reward, minigrid_limit_refuted, minigrid_flags
* HeadProps: dueling_identifiable
* HockeyProps: puck_readings_refuted, puck_velocity_in_frame, puck_velocity_in_frame_refuted, ee_constraints_iff, ee_constraints_second, joint_vel_constraints_iff, joint_pos_constraints_refuted, hockey_absorbing, hockey_absorbing_bullet, hockey_task_absorbing, hit_bounce_point, pb_delay_refuted, pb_puck_limits_refuted, cup_reward_absorbing, cup_movement
* LogProps: best_agent_saved, best_agent_first_refuted, best_agent_reopened_refuted
* LqrProps: lqr_lyapunov, lqr_value_bellman, lqr_action_value, lqr_value_return, lqr_gaussian_bellman, lqr_gradient_K, lqr_solver_env
* LspiTabProps: lspi_fqi_agree, pinv_solves
* MjProps: mj_step_time, mj_force_refuted
* MonProps: collect_q_ensemble_mean, collect_max_q_value, plot_episodes, plot_cut_run, plot_returns_refuted, viewer_on_screen, torque_center_refuted
* NoiseProps: clipped_in_bounds, promp_phase_range, promp_duration_refuted, dmp_phase_refuted, dmp_actions_alias_refuted
* OptProps: caller_gradient_modified_refuted
* ParamProps: line_shape, variance_parameter_statistics_partial, variance_parameter_range, variance_parameter_size_refuted
* PbProps: pb_contact_flag, pb_self_contact, pb_step_time
* PgExpProps: reinforce_expectation_partial, gpomdp_expectation_partial
* PgProps: reinforce_gradients, reinforce_after_failed_fit_refuted, gpomdp_gradients_partial, gpomdp_first_gradient, gpomdp_stale_rewards_refuted, enac_systems
* PolicyProps: eps_greedy_distribution, eps_greedy_sampler
* PpoProps: ppo_surrogate, a2c_gradient, a2c_preprocessor_refuted
* QLambdaConvProps: q_lambda_zero_converges
* ReplayProps: replay_is_bounded_fifo, replay_get_returns_held, replay_add_nstep, replay_one_step_is_identity, replay_add_keeps_caller_rewards_refuted
* RepsProps: pgpe_baseline_optimal, pgpe_shift_invariant, more_surrogate_refuted, more_quadratic, more_features, more_neg_nsd, more_update, more_beta_between
* ResumeProps: replay_resumes, dqn_resumes
* RqConvProps: rq_learning_converges
* SampProps: core_evaluate_distribution, core_evaluate_unbiased, core_learn_on_policy, core_reinforce_expectation_partial, core_gpomdp_expectation_partial, core_evaluate_steps_refuted
* SimProps: ig_obs_range, optimal_return_sum
* SolveProps: car_solver_optimal, car_solver_complete, car_solver_failure, car_solver_total, car_solver_depth_refuted, car_solver_bound_refuted, numerical_diff_object, numerical_diff_quadratic, numerical_diff_integer_refuted
* StochProps: stochastic_optimum_unique, stochastic_optimum_is_return, q_learning_converges_stochastic, expected_sarsa_converges_stochastic, constant_rate_stochastic_refuted
* SumTreeProps: sequence_history_partial, sumtree_nodes_are_sums, sumtree_update_one_leaf, sumtree_leaf_of_row, sumtree_add_stores_like_replay, sumtree_order_complete, sumtree_retrieve_mass_partial, sumtree_retrieve_is_leaf, sumtree_priorities_mark_rows, sumtree_get_returns_stored_partial, sumtree_get_unwritten_refuted, sumtree_mass_with_ties_refuted, sumtree_proportional_with_ties_refuted, sumtree_proportional_partial, per_max_priority
* TdProps: q_learning_update, sarsa_update_spec, expected_sarsa_update_spec, double_q_update, maxmin_q_update, speedy_q_update, r_learning_update, double_q_values_bounded, maxmin_q_values_bounded, rq_values_bounded, traces_closed_form, traces_bounded, lambda_update_effect, lambda_zero_is_one_step, q_lambda_traces_cut_refuted, rq_is_q_learning, rq_absorbing_refuted, weighted_q_next, true_online_forward_view, linear_sarsa_zero, linear_sarsa_one_hot
* TfeatProps: normalize_partition
* TorchFitProps: torch_fit_split, torch_weighted_loss, torch_fit_epochs, torch_early_stopping, torch_fit_terminates, torch_fit_mode, torch_loss_fit, torch_fit_terminates_refuted, torch_loss_fit_refuted, torch_validation_mode_refuted
* TorchProps: torch_weights_rollback_refuted, shared_weights_refuted
* TrpoProps: cg_stop_residual, cg_eigenvector, cg_exact_in_n_steps_refuted
* UtilProps: running_mean_exact, running_variance_exact_partial, running_variance_batch_refuted, exp_average_closed_form, exp_average_range, window_average, minmax_single_bound_refuted
* VecLearnProps: vec_a2c_targets_cross, vec_a2c_mixes_refuted
* VecReplayProps: vec_replay_agent
* VecSampProps: vector_core_evaluate_distribution, vector_core_evaluate_unbiased, vector_core_learn_on_policy, vector_core_learns_as_core, shared_seed_variance_refuted

Axioms `ClassicalDedekindReals.sig_forall_dec`, `ClassicalDedekindReals.sig_not_dec`, `FunctionalExtensionality.functional_extensionality_dep`:

* BatchProps: lspi_result, lspi_optimal_fixed, lspi_absorbing_refuted
* BpttFitProps: bptt_fit_correct_partial, core_ppo_bptt_updates_partial, bptt_joined_rows_refuted
* ConvProps: optimal_values_exist
* CoreBbProps: core_pgpe_updates, core_pgpe_one_episode_refuted, core_wmle_one_episode, core_wmle_finite
* CorePpoProps: core_ppo_updates, core_ppo_every_step_refuted
* CoreReplayProps: sac_learns_from_run
* DpProps: optimal_value_well_defined, value_iteration_terminates, value_iteration_accuracy, exact_solver_exists, policy_iteration_near_optimal_partial, policy_iteration_optimal_without_ties
* DqnProps: sac_action_bounds
* DynProps: cart_equations, seg_equations, seg_picture, mirrored_dynamics
* EnacProps: enac_discounted_refuted
* EnsFqiProps: boosted_table_value_iteration, boosted_mean_refuted
* EnvProps: puddle_world_box, puddle_world_move, ship_steering_box, ship_reset_box, inverted_pendulum_box, segway_observation_space_refuted, segway_angle, ship_outcome, puddle_world_reward, cart_pole_termination
* FeatProps: voronoi_nearest
* FqiLinProps: fqi_table_value_iteration, fqi_table_near_optimal
* GlieProps: weighted_q_no_overestimation, weighted_q_greedy_converges
* HeadProps: noisy_range, noisy_centred_refuted, categorical_q_range, rainbow_dueling
* HockeyProps: puck_in_frame, hit_direction, hit_defined, hit_speed_ignored, hit_speed_refuted, pb_hit_stale_refuted, repel_conceding, repel_worst_refuted, prepare_bonus_refuted, pb_hockey_observation, hockey_reach
* LspiTabProps: lspi_table_policy_iteration, lspi_table_terminates, lspi_untried_refuted
* MonProps: confidence_equivariant, confidence_zero, polygon_rigid
* NoiseProps: ou_actions, ou_bounded, ou_moments, ou_episode_start, dmp_reaches_goal
* OptProps: adaptive_step, minimize_negates, adam_averages, adam_update, adam_first_step
* PgExpProps: policy_gradient_bias_refuted
* PolicyProps: boltzmann_distribution, mellowmax_expected_value
* PpoProps: ppo_loss_gradient, advantage_normalised, ppo_fit_rows, ppo_first_step, ppo_fit_defined, eppo_rows_start, ppo_fit_preprocessed
* ResetProps: pendulum_run_box, reset_given_angle, reset_given_box_refuted, observations_stable, caller_arrays_kept, lqr_initial_state, reset_given_overwrites_refuted
* SacProps: sac_alpha_gradient, sac_warmup, sac_warmup_refuted, sac_fit_order, sac_actor_loss
* StochProps: stochastic_optimum_exists
* TdProps: td_absorbing_no_bootstrap, td_values_bounded, weighted_q_variance, weighted_q_moments
* TfeatProps: gauss_tensor_agrees, random_fourier, rbf_width, gauss_tensor_normalized
* TrpoFitProps: trpo_step_correct, core_trpo_updates, vec_trpo_updates, trpo_trust_region_refuted, trpo_flat_data_refuted
* TrpoProps: full_step_kl, line_search_result
* UtilProps: standardization_well_defined, angle_positive_canonical, angle_canonical, angular_distance_shortest, minmax_values, minmax_preserves_input_partial, minmax_mutates_input_refuted
* VecLearnProps: vec_ppo_updates
* VecPreProps: minmax_batch_rows_refuted

Axioms `ClassicalDedekindReals.sig_forall_dec`, `Classical_Prop.classic`, `FunctionalExtensionality.functional_extensionality_dep`:

* DistProps: quantile_shared_levels
* LqrProps: feedback_gain_optimal

Axioms `ClassicalDedekindReals.sig_forall_dec`, `ClassicalDedekindReals.sig_not_dec`, `Classical_Prop.classic`, `FunctionalExtensionality.functional_extensionality_dep`:

* BboProps: rwr_weights_spec, reps_weights_spec, mle_mean_maximises, gd_dual_max, diag_dual_max, diag_dual_bound, diag_mle_maximises
* ConRepsProps: gd_con_wmle_optimal, diag_con_wmle_optimal, chol_con_wmle_optimal, creps_weights_bound, creps_update_bounds, creps_dual_unbounded_refuted
* ConvProps: decaying_rates_diverge
* CoreFmdpProps: core_q_learning_finite_mdp
* CorePerProps: core_per_updates, core_per_memory, core_per_full_sound, core_per_unwritten_refuted
* CoreTdProps: core_q_learning_run, core_q_learning_converges
* CrepsSchedProps: creps_schedule, creps_schedule_ends
* DynProps: car_slope, car_curvature, car_picture, car_energy_balance, car_force_constant, car_must_swing, pend_energy_balance, pend_dissipates, cart_energy_balance, seg_energy_balance
* FeatProps: rbf_range
* GaussProps: gd_score, diag_score, chol_score, gp_score, dgp_score, ssgp_score, slsgp_score, gaussian_entropy_kl
* GlieProps: esarsa_boltzmann_converges, esarsa_fixed_exploration_refuted
* HeadProps: categorical_loss_gradient, categorical_loss_stuck_refuted
* HockeyProps: hit_goal, pb_hit_goal, defend_conceding, prepare_range
* MoreProps: more_density, more_weak_duality, more_attained, more_bounds, more_active
* ParamProps: linear_parameter_schedule, decay_parameter_schedule, decay_antitone, constant_parameter, parameter_counts_visits
* PolicyProps: boltzmann_monotone, mellowmax_between, boltzmann_query_not_pure_refuted
* PpoClipProps: ppo_clip_schedule, ppo_clip_schedule_ends
* PpoProps: eppo_context_refuted, ppo_first_ratio_refuted
* QLambdaConvProps: q_lambda_convergence_refuted
* RainbowProps: rainbow_updates, rainbow_memory, rainbow_full_sound, rainbow_rows, rainbow_never_learns_refuted, rainbow_lost_windows
* RepsProps: reps_dual_derivative, reps_dual_slack, reps_dual_bound, reps_update_bound, reps_stationary_optimal
* ResumeProps: per_loaded_evaluates, per_full_memory_resume_refuted, per_resume_refuted
* SacProps: sac_log_prob_density, sac_log_prob_refuted, sac_std_bounds, soft_update_ensemble_refuted
* SolveProps: numerical_diff_accuracy
* StochProps: q_learning_averages, expected_sarsa_averages
* SumTreeProps: per_weights_normalised, per_weights_antitone, per_priority_positive
* Td3NoiseProps: td3_noise_schedule, td3_noise_odd, td3_shared_parameter, td3_shared_parameter_refuted
* TfeatProps: von_mises_range, von_mises_ring_refuted
* TpolProps: torch_gaussian_density, torch_gaussian_score, torch_gaussian_entropy, recurrent_gaussian, recurrent_entropy_refuted, torch_boltzmann_distribution, torch_boltzmann_temperature, torch_boltzmann_entropy, torch_boltzmann_score, torch_cholesky_density
* TrpoEntProps: trpo_coefficient_reads, trpo_entropy_decay_refuted, trpo_entropy_growth_refuted
* VecReplayProps: vec_rainbow_updates, vec_rainbow_memory, vec_rainbow_rows, vec_rainbow_never_learns_refuted

