s=open('/verif/DESIGN.md').read()
head='''# Formal model of power-grid-model in Rocq (Coq 8.16.1)

Source paths below are relative to `/repo/power_grid_model_c/power_grid_model/include/power_grid_model/`
unless they start with `C-API/`, which stands for `/repo/power_grid_model_c/power_grid_model_c/src/`.

Contents: 1 approach, 2 plan and result per property, 3 trusted base, 4 what is modelled and what is not,
5 assumptions of the theorems, 6 findings, 7 testing against wrong programs.

## 1. Approach

* The model is a set of total, computable Gallina functions, written function by function from the C++ headers.
  Each definition carries a comment with the file and lines it models and, where it simplifies, how.
* Per area there are up to four kinds of files in `rocq/theories`: `X.v` is the model and has no proofs; `XSpec.v` is a small
  specification that does not use the model's helpers; `XFacts.v` and files with other suffixes hold lemmas; `XProps.v` holds the
  property theorems `Cnn_...`, examples that meet their hypotheses, and `Print Assumptions` for each.
* C++ undefined behaviour (out of range access, failed assert, use of a destroyed object) is a distinct outcome
  (`None`, `Undef` or a constructor of its own), never a silent default, wherever the theorem depends on it.
* Numbers: integers are `Z`/`nat`; int8 wrap-around is explicit where it matters. Floating point values in the update
  layer are opaque values with a distinguished NaN. Numeric kernels are modelled over an arbitrary field or ring (exact
  arithmetic). Where infinities and NaN matter, numbers are `Ext.ext` (exact rationals with infinities and NaN); where
  only comparisons matter, Coq's `SpecFloat` doubles.
* Parallelism is modelled as an arbitrary interleaving of atomic worker steps.
* Calls to things outside the model (sorting, pivot choice, the linear solve inside an iteration, the power flow inside the tap search,
  printing of doubles) are parameters; the theorems hold for every function that meets a stated contract.
* Where the faithful model violates the property, the theorem is named `..._refuted` and has a concrete witness;
  what does hold is proved beside it and named `..._partial` if it is weaker than the property.
* Loops without an evident bound are modelled with fuel; running out of fuel is an outcome of its own and the theorems show that it does
  not occur.

'''
rows=[
("C01","Container","component container: emplace, id map, vectors per type","invariant over the list of insertions; refinement to an abstract id map"),
("C02","Container","get_idx_by_id, get_indexer with error results","from the C01 invariant"),
("C03","Container","cumulative sizes, get_seq, get_idx_2d_by_seq","induction over the type list, bijection"),
("C04","GroupedIdx","sparse_encode, sparse_decode, get_group, element ranges","induction; equivalence of encodings"),
("C05","GroupedIdx","counting sort with in-place counters, comparison sort of pairs","loop invariant of the backward placement; uniqueness of a stable sort"),
("C06","Component, MainModel, UpdateData","update function of every component type","pointwise law per attribute, fold over records; regulators refuted"),
("C07","Component, MainModel, UpdateData","inverse functions, cached inverse updates, restore in reverse","fold induction; four refutations"),
("C08","JobDispatch","thread count, strided loops, workers as step machines","invariant over schedules"),
("C09","JobDispatch, Batch","workers over a shared output, any interleaving","invariant over schedules; depends on the restore law C07"),
("C10","JobDispatch, Batch","call_with, exception strings, handle_batch_exceptions","case analysis plus C09 invariant"),
("C11","MultiDim","calculate_multi_dimensional_impl with handle clearing","induction over dimensions; failure report refuted"),
("C12","UpdateData","UpdateCompProperties and lookup of update records","case analysis over the checks, list lemmas"),
("C13","MainModel (CacheSpec, CacheFacts)","cache flags, cached topology / admittance / changed indices, prepare_solvers","invariant over operation histories, refinement to a cache-free model"),
("C14","Copy","model and copy with solver identities and callbacks","invariant; callback aliasing refuted"),
("C15","Topology","graph build, depth first search with explicit stack, colours","invariant of the search; reachability as inductive relation"),
("C16","Topology","phase accumulation on tree edges","same invariant"),
("C17","Coupling","coupling of branches, appliances, regulators, sensors to sub-grids","from C05 and C15"),
("C18","SparseOrdering","minimum_degree_ordering","permutation invariant, elimination closure"),
("C19","YBus","YBusStructure","sortedness and counting invariants"),
("C20","YBus","admittance accumulation and increments over a commutative ring","sum rearrangement"),
("C21","YBus (YBusFlow)","injection / branch flow / shunt flow","sum rearrangement"),
("C22","SparseLU","in-place sparse LU over blocks, refinement loop","invariant relating overwritten entries to Schur complements"),
("C23","DenseLU","dense LU with complete pivoting","induction on the elimination step (mathcomp matrices)"),
("C24","Supernodes","merging of nodes by closed links","union / reachability"),
("C25","LinkSolver","elimination on adjacency maps","solutions preserved by forward and backward steps; cyclic case refuted"),
("C26","TwoPort","branch admittances over a field","field identities"),
("C27","Taps","tap clamp and cyclic tap direction on int8, clock numbers","arithmetic"),
("C28","TapSearch","RankIteration, BinarySearch, iterate with an oracle","lexicographic measure"),
("C29","TapSearch","optimize with try/catch","invariant"),
("C30","TapSearch","linear search","post-condition of the loop"),
("C31","TapRank","graph build and Dijkstra","shortest path invariant; three refutations"),
("C32","Statistics","combine, decomposed measurements","identities over lists in `ext`"),
("C33","MeasuredValues","distribution over appliances","sum identities, least squares"),
("C34","Calculation","validity checks before a calculation","boolean reflection"),
("C35","Datasets","dataset integrity checks, spans","arithmetic on offsets"),
("C36","Datasets","set_next with pointer walk","acyclicity invariant over call sequences"),
("C37","Serial, Json","serialiser / deserialiser over msgpack tokens, JSON writer and SAX reader over characters","round-trip induction; simulation for numbers that change their form"),
("C38","Calculation, PowerFlow","iteration loop with SpecFloat deviations","induction; NaN and negative limits refuted"),
("C39","PowerFlow","linear solver assembly and results","algebra on any solution of the equations"),
("C40","Calculation","method dispatch tables","case analysis"),
("C41","Handle","call_with_catch over a handle","induction over calls"),
("C42","Buffers*, MetaBuffersProps","byte buffer addressing; the attributes of the tables of MetaTables.v","arithmetic; for the library from the layout of C70"),
("C43","ShortCircuit","short circuit equations","field identities"),
("C44","ShortCircuit","fault tables","finite case analysis"),
("C45","Registration, Output","path from created model to result records","from C03, C05, C15, C17 and C24; current sensors refuted"),
("C46","Registration, Container","creation of a model","equivalence with a well-formedness specification"),
("C47","Taps","tap interpolation, star equivalent","field identities"),
("C48","TapSearch","search with monotone voltages","bisection argument: the good position stays strictly between the bounds; two strategies refuted"),
("C49","PowerFlow","reported currents and powers","field identities"),
("C50","ReactivePower","check against limits and division among regulators","linear arithmetic over Q, termination measure"),
("C51","PowerFlow","iterative current step","fixed point algebra"),
("C52","MeasuredValues","which measurements are used","case analysis over all sensor states"),
("C53","CalcInput","preparation of solver input","from C17 and the registration facts"),
("C54","Json","kept results of a serializer","invariant over calls; refuted for one sequence of options"),
("C55","Newton*, NumbersPair","Newton-Raphson power flow: start, Jacobian, limits, steps","invariant over iterations; the rows as derivatives of the missing power; fixed points by algebra"),
("C56","LinearSE*","iterative linear state estimation: matrix, right-hand side, iteration","the rows paired with a change of the voltages are the derivative of the sum of squares; completing the square"),
("C57","NewtonSE*","Newton-Raphson state estimation: matrix, right-hand side, multipliers, step","the rows paired with a change are the derivatives of the measured quantities; completing the square; multipliers by linear algebra; refuted for several phases and open branches"),
("C58","Observability*","the observability check: scan of the sensors, necessary condition, radial assignment, search of a spanning tree","counting of classes; greedy assignment by induction over the buses; invariant of the search (a tree with one sensor per branch) under reassignment and roll back; refuted for several angles, and as converse for meshed grids"),
("C59","Units*","per-unit conversion of inputs and get_output of all components","equations over real and complex numbers for both symmetries; angles up to full turns; refuted for sensors of the other symmetry with local or phase angles"),
("C60","SelInv*","selective inverse (Takahashi recurrence) in place of the factors","invariant over the pivots from the last to the first: the trailing entries are the inverse of the trailing factors; the inverse is built as a product of elementary matrices"),
("C61","Balanced*","admittances, flat start, iterations and results of linear, iterative current and Newton-Raphson power flow (NewtonRaphson.v), conversion to SI units","the blocks of the matrix act on balanced voltages as the positive sequence (C26, C20); induction over the iterations; balanced solutions solve the equations of three phases, which have at most one; the rows of each block of the Jacobian of three phases sum to the entry of the symmetric one"),
("C62","Ratings*","constructors of lines, generic branches, asymmetric lines, transformers and three-winding transformers: from ohms and nameplate values to per-unit admittances","scaling of the circuit of C26 by the bases of its two sides; the tests of the nameplate computed in volts and amperes; elimination of the neutral solves the four-wire equations"),
("C63","Losses*","the admittances of TwoPort.v and Ratings.v, the injections and flows of YBus.v","the power of a two-port as a sum of squares; three phases by symmetrical components or by quadratic forms of matrices, closed under inverses; sums over buses rearranged into sums over branches and shunts"),
("C64","SquareSystem, Solvable*","the equations of PowerFlow.v with the admittance matrix of YBus.v and the branches of Ratings.v","a voltage that solves the homogeneous equations takes no active power, so by C63 it is zero at sources and, through every resistance, at all buses; a square system with only that solution has exactly one for every right-hand side, by elimination; reordering carries solutions over, uniqueness makes them equal"),
("C65","ShortSolvable*","the equations of ShortCircuit.v with the admittance matrix of YBus.v; the outcomes that the laws of circuits allow (ShortSolvableSpec.v)","every fault takes a non-negative active power under its conditions, so the difference of two outcomes is zero at sources and through every resistance at all buses; for the homogeneous equations of the solver each changed column is read as a voltage and a fault current at its bus (as in C43), zero voltages and currents give a zero solution; existence from a square system, order and balance from uniqueness"),
("C66","BalancedSE*, SensorVariance, BalancedSensors","the iteration of LinearSE.v (C56) in one and in three phases, with the admittances of the components of TwoPort.v; the variances of current sensors and the mean measured angle","every admittance of a symmetric component, and its hermitian, acts on balanced voltages as its positive sequence; so every block of the gain and the right-hand side does, and the lifted solution of the symmetric equations solves the asymmetric ones; induction over the iterations, uniqueness from C56; the sensors by calculation over the reals"),
("C67","EstimateOrder*","the iteration of LinearSE.v (C56) for two numberings of one problem (EstimateOrderSpec.v)","the residuals of both are a permutation of each other with variances times a factor; each estimate cannot be improved on in its problem, so the sum of the weighted squares of the differences of the residuals is zero; induction over the iterations"),
("C68","EstimateExists*, EstimateGrid","the equations of LinearSE.v (C56); sensors from which the voltages follow (EstimateExistsSpec.v)","the equations with zero measured values are those of an estimation of measurements without errors at voltages zero, so by C56 only zero solves them; as many equations as unknowns then have a solution (SquareSystem.v); conversely voltages that no sensor sees, or dependent injections, can be added to every solution; induction over how voltages follow from sensors; in grids with losses by the energy argument of C64"),
("C69","Logging*","the loggers of the main thread and of the threads with all their actions (Logging.v); totals and largest values of what was logged (LoggingSpec.v)","invariant over the actions: the report is the one of the events handed in so far, in the order of the text; then permutations; the workers share out the scenarios by their remainders"),
("C70","Meta*","the meta data functions of the C API on any meta data and the layout of structs (MetaData.v); all structs, attribute lists, datasets and conversions (MetaTables.v, written by tools/gen_metatables.py); MetaSpec.v","induction over the members for the layout of any struct; look ups by unique names; the tables by computation on all of their entries, which are finitely many"),
]
import json
man={c['property']:c for c in json.load(open('/verif/MANIFEST.json'))['claims']}
t='## 2. Plan and result per property\n\nThe theorem names, and what is missing where the status is `partial`, are in `MANIFEST.json`.\n\n| id | model files | modelled | proof | status |\n|----|----|----------|-------|----|\n'
extra=globals().get('EXTRA',[])
for r in rows+extra:
    st=man[r[0]]['status'] if r[0] in man else 'planned'
    if any(x.endswith('_refuted') for x in man.get(r[0],{'theorems':[]})['theorems']): st+=', refutations'
    t+='| %s | %s | %s | %s | %s |\n'%(r[0],r[1],r[2],r[3],st)
rest=open('/verif/tools/design_tail.md').read()
open('/verif/DESIGN.md','w').write(head+t+'\n'+rest)
