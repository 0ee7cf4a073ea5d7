# A Rocq model of pyRFtk: what is modelled, how it is proved, what is trusted

Everything below `rocq/theories` is checked by Coq 8.16.1. `/repo` (python) was read as text;
nothing of it was executed. `properties.jsonl` lists the properties, `MANIFEST.json` maps each to
its theorems, `seeded/LOG.jsonl` records the wrong programs the theorems were tried against.

The properties were first written as a user would expect them to hold. Where the code does
something else, the statement in `properties.jsonl` now says exactly where the expectation holds
and where it does not; the exceptions are theorems too (suffix `_refuted`, `_wrong`, `_lost`,
`_stale`, ...). Section 5 lists them.

## 1. Modelling conventions

* **Numbers.** Python floats/complexes are modelled by *exact* arithmetic in an arbitrary mathcomp
  `numClosedFieldType` (complex numbers with conjugation, norm, order of the reals) or, for
  frequencies and sampled data, an arbitrary `realFieldType`/`eqType`. Rounding, overflow, NaN/inf
  propagation and numpy dtypes are out of scope (an rfRLC element value may be +inf: `Inf`).
* **Transcendental functions** (exp, cos, sin, log, 10^x) and constants (pi, c0, ...) are
  arguments of the model. A theorem that needs a property of one (exp(x+y)=exp x exp y at the
  values used, cos^2+sin^2=1 at the angle used, ...) has it as a hypothesis. np.sqrt is the
  principal root and defined.
* **Matrices.** `np.linalg.inv A` is `if A \in unitmx then Ok (invmx A) else Raise LinAlgError`.
  Matrices handled by one conversion are mathcomp `'M_n`; the circuit's growing matrix is a list of
  rows (as numpy's vstack/hstack use it), turned into `'M_n` where numpy inverts it. Arrays of
  dimension 0..3 are the inductive type `nd`.
* **Exceptions** are values: `res A := Ok a | Raise exn`; methods which mutate `self` return the
  state as it is *when the exception leaves the method*, so that non atomic failures are visible.
* **Loops** that need not end (rfGTL variables, TLresolver) take fuel; `None` means "still running"
  and termination theorems say from which fuel on there is a result. Recursion over nested objects
  is by depth or structural.
* **Aliasing** that matters (ports/Portnames after extS, callers' dicts that get popped, shared
  sequences in scaleVSW) is written into the model as explicit state.
* **External behaviour** (file system, environment, float parsing/printing, regular expressions,
  scipy interpolation, polyfit, argsort, the getS of leaf objects, python's parser) enters as
  explicit arguments quantified in each theorem; nothing is assumed about them beyond the
  hypotheses of that theorem.
* **No axioms of our own.** Section variables only occur inside sections; all theorems are closed.

## 2. Files

| part of the code | model | specification | proofs | theorems |
|---|---|---|---|---|
| S_from_Z, Z_from_S, Y_from_S, S_from_Y, S_from_VI, ConvertGeneral, _check_3D_shape_ | ConvModel.v | ConvSpec.v | MxLib, ConvProofs, ConvArr, ConvMore, ConvExamples | PropsConv.v (C01-C09) |
| `__init__.py` and the relative imports | Imports.v | | | PropsConv.v (C09) |
| rfCircuit.py: addblock, connect, terminate, deembed, extS, getS, Solution, maxV, getpos, set | CircModel.v, CircHist.v, CircMaxV.v, CircNest.v, SetModel.v, CircSetP.v | CircSpec.v, CircFlat.v | CircLib, CircInv, CircAdd, CircApp, CircConn, CircTerm, CircDe, CircFill, CircSolve, CircExt, CircOrd, CircGet, CircMain, CircThm*, CircSetX, SetThm | PropsCirc.v, PropsCircS.v, PropsSet.v (C10-C28); cases in PropsCircW.v |
| rfCircuit: findObj, object, listBlocks | PropsFind.v on the trees of SetModel.v | PropsFind.v (well_named, ends_dot), SetModel.v (at_path) | PropsFind, SetThm | PropsFind.v (C58) |
| rfCircuit.Solution with the nodes of sub-circuits | CircSub.v | CircSub.v (deep_sat, deep_nodes) | CircSubT | PropsCircN.v (C50) |
| rfCircuit.Get_internalSmatrix | CircInt.v | CircInt.v (node_of, marked, wave_a, wave_b, relates_nodes) | CircLin, CircIntT | PropsCircI.v (C51; C22_superposition) |
| copies: rfBase.copy, `__copy__`, `__deepcopy__` on circuits | CircCopy.v (copy_circ, dupn) | CircCopy.v (question, answer, asks) | CircCopy, CircCopyT | PropsCircC.v (C54) |
| addblock of a dotted name | CircAddP.v (addpath) | CircAddP.v (knows, fits, replaced, tracks) | CircAddPT, CircAddN | PropsCircP.v (C55) |
| rfRLC, rfCoupler, rfArcObj, rfBase (getS, maxV, tables) | DevModel.v | DevSpec.v | DevThm | PropsDev.v (C32, C36, C39, C40, C49) |
| rfTRL (constant parameters) | TrlModel.v | TrlSpec.v | TrlThm | PropsTrl.v (C37, C38) |
| rfTRL (position dependent parameters) | TrlVar.v | TrlVar.v (calculus, telegraph, var_law, integrates) | TrlVarT | PropsTrlV.v (C59) |
| rfGTL: keywords of a block | GtlKw.v | PropsGtlK.v (written, once, means, unit_of) | PropsGtlK | PropsGtlK.v (C60) |
| circuits: reciprocity and power | (CircModel.v) | CircPow.v (recip_obj, passive_obj, lossless_obj, every) | CircPowT.v | PropsPow.v (C61) |
| circuits of actual devices | CircElem.v (elem, e_getS, e_set, rlc_obj) | CircElem.v (e_den: the laws of DevSpec.v, TrlSpec.v; recip_elem, passive_elem, lossless_elem, defined_elem) | CircElem.v (elem_cls), CircDiss.v | PropsElem.v, PropsElemS.v, PropsDiss.v (C62) |
| addblock params | CircParm.v (pobj, e_apply, p_getS, p_set) | CircParm.v (p_den, eff, accepts: the laws of CircElem.v of the object as the params make it); rlc_with, given in PropsParm.v | CircParm.v (parm_cls) | PropsParm.v (C63) |
| rfCircuit.resolve_xpos | CircXpos.v | the statements (free ports, net_hist) | PropsXpos.v | PropsXpos.v (C64) |
| rfObject | ObjModel.v | ObjSpec.v | ObjThm, ObjThm2 | PropsObj.v (C29-C31) |
| rfObject from an array, interpolation of two rows, pickling | ObjArr.v (from_array, interp2, unpickled) | ObjArr.v (reply, replies), ObjSpec.v | ObjArr, PropsObjA | PropsObjA.v (C56, C57) |
| ReadTSF, WriteTSF, rfBase.tsf2str | TsfModel.v | TsfSpec.v | Tsf*.v | PropsTsf.v (C33, C34); cases in PropsTsfW.v |
| resolveTLparams.TLresolver | TlModel.v | TlPhys.v (record `physical`) | TlThm, TlLoop, TlSolve, TlLC | PropsTl.v, PropsTlW.v (C42, C43) |
| rfGTL: variables | GtlModel.v | | GtlThm | PropsGtl.v (C46) |
| rfGTL: from the description to the circuit, positions, getS | GtlNet.v | GtlNet.v (gtl_law, gtl_quiet, gtl_fit, layout, located) | GtlNetT, GtlNetH, GtlNetL, GtlPos, GtlNetA, GtlNetB, GtlNetP | PropsGtlN.v (C52, C53) |
| maxfun, config._newID, str_dict, scaleVSW, findpath, getlines | UtilModel.v | | UtilThm | PropsUtil.v (C35, C41, C44, C45, C47, C48) |

How the main ones are proved:

* **Conversions (C01-C08).** The specification is the relation between port voltages and currents
  (`relates type Z S v i`: the waves of (v,i) satisfy b = S a). Each function is shown to return S
  iff the relation has that description, and to raise iff it has none (MxLib: kernels of columns,
  quotients of matrices); uniqueness, round trips and compositions follow.
* **Circuits (C10-C25).** A history of calls is executed on the model's state (`reach`) and, separately,
  turned into a network description (`net_hist`: blocks, junctions, loads) whose solutions are
  voltage/current assignments (`sat`). The invariant `Inv` ties the rows of the equation matrix to the
  laws of the network; it is preserved by every call, also by raising ones. getS then returns the matrix of
  the relation between voltages and currents at the free ports (`net_S`).
* **Nested circuits (C24).** A circuit is an instance of the record of block objects (`vcls`), so the
  theorems on circuits apply to circuits of circuits; `full` is the flat network and the solutions
  correspond by induction on the depth.
* **Copies (C54).** The copy is a circuit whose attributes are deep-copied one by one, so that Portnames and ports, one list after
  extS, become two. A simulation relation (equal up to that and up to copies of the blocks' objects, by induction on
  the depth) is kept by getS and Solution. Not modelled: Id, devices' own copies (their answers are those of the
  device), one object used for several blocks.
* **Replacing inner blocks (C55).** The copy made on the way is simulated (C54) by the inner circuit itself with the block
  replaced in place, which is a history of its own; the outer circuit then has the history with that circuit
  as the new block. Not modelled: `params`.
* **Arrays and pickling (C56, C57).** The table of two equal rows and the straight line through them are modelled with
  numpy's angle, exp and log as functions with |s| exp(i angle s) = s and exp(log s) = s (hypotheses of the theorems, met by
  C56_witness). Pickling drops the interpolation and the second dimension of arrays without rows; a simulation
  relates the object and its unpickled twin through all later setS and getS calls.
* **Finding blocks (C58).** Cutting a text at its first '.' again and again (findObj) and at all at once (object) are related by
  induction on the text; both then follow the path of the specification. Not modelled: the messages.
* **Lines with position dependent parameters (C59).** odeint is a parameter assumed to return values of functions with the
  given initial values and derivatives (good_odeint); differentiation is a relation that satisfies linearity, the product
  rule, conjugation and monotonicity (record calculus). Two solutions with initial values (1, 0) and (0, 1) have
  Wronskian 1, so that they span all solutions; the power flow is monotone when the real parts are nonnegative.
  The witness of C59 gives such a calculus (polynomials on R[i] over any real closed field; monotonicity by the mean
  value theorem) with an exact odeint for z = i x, y = 0. np.ceil is any function; the while loops have a bound on
  their passes beyond which the model raises, and the theorems speak of calls that return.
* **Keywords of rfGTL blocks (C60).** The passes over the dict (_remap_, evaluation, conversion of units, _remap_) are related to what
  is written by their effect on dget; the evaluation of texts is an arbitrary function (C46 is about the one of the variables);
  what cannot be multiplied by a number is one case of the values. The object made is an argument of C52: C60 says with what
  keywords it is made.
* **Reciprocity and power (C61).** Tellegen's theorem: every node of a network is created once and used at most once (clean_run, an
  invariant of histories without deembed), every joint is balanced, hence the sum of v i' - v' i, or of Re(v conj i), over the free
  ports is the sum over the blocks minus that over the loads; by induction on the depth through sub-circuits. The matrix side
  is that of C05 (symmetric, passive, unitary in terms of v and i).
* **Circuits of actual devices (C62).** The device models (DevModel.v, TrlModel.v) are put together into one class of block objects, elem_cls, whose meaning is the physical law of the device; rlc_sound, trl_getS_law, base_getS_iff and convert1_iff show that its getS returns only matrices of that meaning, after any earlier calls. C62_network is then C12 for this class, the reciprocity, passivity and losslessness of each kind (elem_recip, elem_passive, elem_lossless) feed C61, and elem_answers gives C62_answers. len() of an rfRLC is modelled separately (rlc_obj). Frequencies are the non-zero numbers (a sub-type), because rfRLC may answer on the wrong impedance at f = 0. set: an induction over the keywords for one object; for circuits C18_sets_and_params (set_keeps holds but for Zbase = 0 of a line, which prm_ok leaves out). No oscillation (C61_no_oscillation, C62_no_oscillation, C62_total): the power balance of C61 makes the power into every block and free port 0, hence no currents (dissipative_obj); the voltage 0 spreads from ground over the nodes (induction on `grounded`), the currents over new nodes by induction on the history (nodes_ind).
* **Params of blocks (C63).** A second class of block objects, parm_cls, pairs an element of CircElem.v with the params dict of its block. What getS does first with the params (e_apply) is the only new part: RLC values are popped into the object, a line is set and keeps them. Applying the params again changes nothing (eff_idem), so the law of the object as the params make it does not depend on the getS calls made (p_getS_state), and C12, C61 apply to the new class as they did for C62. set: after_rlc and after_line say what state an object is in after any getS calls; C63_set reduces circuit.set to p_set of that state. Restricted (good_params): finite Rs, Ls, Cp and non-zero Zbase, dicts without repeated names. Not modelled: params of a block that is itself a circuit; one dict given to two RLC blocks (the first getS of the one empties it for the other: C36_params).
* **resolve_xpos (C64).** The loop stops at the first port name with a dot; C10 relates the ports to the free ports of the network, and the relation of blocks to objects (v_blk) gives the port names of the object after any getS calls. block['xpos'] is a number (relpos), as everywhere in the model; a list given as relpos is not modelled.
* **Internal matrix (C51).** The solutions of a network form a vector space (CircLin: the law of every block is
  linear because getS returned), so the unit excitations span them (CircIntT.expand); MB A^-1 then relates the waves,
  and with fewer nodes the Penrose conditions (pinv_penrose) give the rest.
* **rfGTL (C52, C53).** The constructor is shown to be a history of addblock, terminate, connect and getS calls
  (`assemble_reach`), so that the theorems on circuits apply; the network of that history is shown
  equivalent to a law stated on the description alone (`gtl_law`: sat_law, law_sat). Acceptance is proved call by call
  (GtlNetA, GtlNetB). Positions: an invariant of the loop (GtlPos.PI) with a measure (blocks that are set).
* **Touchstone (C33, C34).** On characters: lines, words, records; the number formatting is an argument.
* **TLresolver (C42, C43).** The 50 equations are a table; the loop makes an ordered, solved system; the
  criterion for what is solvable is proved by a finite computation on the sets of names inside a
  general induction; each formula is compared with the record `physical`.

## 3. Trusted base

1. Coq's kernel (8.16.1, also replayed by coqchk).
2. The assumptions printed by `Print Assumptions` for every theorem: see `rocq/theories/Assumptions.v`, which
   prints them when it is built. All theorems are *closed under the global context*: no axioms at all, not even
   those of the standard library.
3. That the definitions in the *Model*.v files say what the python says: each has a comment with file and lines
   and the simplifications made.
4. That the specification files say what the English says.

## 4. Not modelled

* circuit.py (deprecated, not imported by the package), compareSs, all plotting, the codebase and
  printing helpers (printMatrices, strM, str_dict's formats except as an argument), ReadDictData, logging,
  `__str__`, pickling of circuits, tkinter/argument front ends.
* rfCircuit: reading an sNp file in the constructor (the keyword is misspelled), Id/xpos
  bookkeeping beyond getpos, plotting, the state a circuit is left in by a Solution that recursed into sub-circuits (what it returns is C50); Get_internalSmatrix of nodes inside sub-circuits (modelled, the theorems are about nodes of the circuit itself); the cut-off of numpy's pinv (the exact Moore-Penrose inverse is modelled).
* rfTRL: sNp data; the error of odeint (taken to be exact). rfArcObj with the default Larc = inf.
* rfObject: construction from files (only the state they leave), the values of Zcs and Gms, `__eq__`, copies; scipy's interp1d of tables with more than two rows is an arbitrary function.
* ReadTSF: the fields part, numbering, variables of the result.
* rfGTL: reading the files; the keywords of a block are modelled (C60), but C52 takes the object a block gets, or the exception met while
  making it, as an argument; arrays as values; ports that are neither str nor dict, `__str__`, printing.
* TLresolver: the printed texts (but the evaluations made for them are modelled, since they can raise).
* Threads, except for the identifiers (C45).

## 5. Findings (proved of the model; file and lines are in the comments of the model)

Conversions: ConvertGeneral of a list returns one value (C06); bad shapes raise TypeError because the
error message cannot be formatted (C07); S_from_Y, and the Z/Y output of rfBase and the arc of rfGTL, call
modules (C09).

rfCircuit: a changed load is not seen at the frequency asked for last (C17); params= is ignored there
(C18); replacing by an object of another size raises KeyError (C19); a refused connect loses a port and
a refused deembed leaves one (C20); a solved circuit that grows can never be solved again (C21);
the first Solution with reordered Portnames uses the wrong order (C23), as does a sub-circuit (C24);
set({...}) is refused, and a raising set leaves stale results (C26); the caller's ports mapping
is emptied (C27); maxV raises when a named port has been used (C28); resolve_xpos raises on any port of a block (C64); Solution of all nodes raises when a
sub-circuit was given other port names (C50); Get_internalSmatrix of fewer nodes than ports returns a matrix
even when none relates the waves there (C51_fewer_refuted). Further: an array block and a new
port make connect raise AttributeError; getS without ports raises IndexError; terminate also pops
the caller's Portnames list; deembed does not update xpos.

rfObject: the sorted flag looks at two entries only, out-of-order data make interpolation
raise IndexError for ever, convert2newZbase and sortports leave stale interpolations (C29, C30), an
object named by setS cannot be sorted (C30), nor one that was pickled (C57), an object made from an array cannot take more data (C56), deembed accepts pairs only (C31) and pops the
caller's dict, maxV takes the maximum of complex numbers (C32).

Devices: rfRLC at f=0 is on 1 Ohm (C36), its params= change the object for good and empty the
caller's dict; a lossless rfTRL at f=0 raises (C37); a failing rfTRL.set leaves the old profile (C38);
set of the length of a line put in with params L has no effect, set of an RLC block with params only after the first getS (C63);
node points of a position dependent line use f for 2 pi f, and length 0 raises with the default step (C59);
no block of an rfGTL can be an arc (C60);
kc=0 gives a 3 dB coupler (C39); rfArcObj of a list on another impedance gives one value (C40).

Files: tsf2str writes two-ports transposed with respect to ReadTSF and chooses the decimals of the
frequencies from one step (C33); ReadTSF needs an R in the option line, and comments about impedances
change the result (C34); a list of port names of the wrong length is ignored without a word; Y data always raise (S_from_Y); option lines with a trailing comment raise;
getlines: trailing newline, carriage return, open files, lists (C35).

Copies: a block added under a new dotted name makes the circuit unsolvable (C55_new_refuted); after a port of a solved circuit's copy is terminated the copy never answers again (C54_terminated_refuted).

Others: maxfun with decreasing abscissae (C41); TLresolver: a given gTL is set to 0, rTLO uses RsI, mur/epsr from vr,
A from AdB, Rs never used (C42, C43); identifiers and threads (C45); rfGTL variables loop for ever or
join texts (C46); an rfGTL with touchstone data still raises where its circuit cannot be solved (C52_touchstone); a block with a position whose first port is '[oc]' or '[sc]' raises KeyError (C53_given), a second load of
a block is lost and makes the constructor raise (C52_only); blocks with 'Larc' never become arcs because the test looks at the constructor's own keywords; str_dict accumulates (C47); scaleVSW scales shared sequences twice (C48).
