{"id": "C01", "title": "S_from_Z / Z_from_S describe the same multiport", "statement": "For every impedance matrix Z and reference impedance Zbase for which it returns, S_from_Z(Z,Zbase) is the one and only matrix S with (V-Zbase I)/2 = S (V+Zbase I)/2 for every port current vector I with V = Z I. Z_from_S inverts it and S_from_Z inverts Z_from_S: whenever the first call returns, the second one returns too and gives back the original matrix. Z_from_S(S) and Y_from_S(S) are mutually inverse matrices, and both functions raise LinAlgError exactly when no such matrix exists.", "quantifier": "every number of ports, every complex matrix, every non-zero Zbase", "why_tests_cant": "the claim ranges over a continuum of matrices of every size and includes the exact failure set", "anchors": ["src/pyRFtk/S_from_Z.py:S_from_Z", "src/pyRFtk/Z_from_S.py:Z_from_S", "src/pyRFtk/Y_from_S.py:Y_from_S"]}
{"id": "C02", "title": "ConvertGeneral preserves the physical multiport", "statement": "ConvertGeneral(Z2,S1,Z1,type1,type2) returns the unique S2 such that, for every voltage/current vector pair (V,I), the type1 waves of (V,I) on Z1 satisfy b=S1 a only if the type2 waves of the same (V,I) on Z2 satisfy b=S2 a, and conversely; it raises LinAlgError exactly when no such S2 exists.", "quantifier": "every number of ports and frequencies, every S1, every (frequency and port dependent) reference impedance and each of the nine pairs of wave types V, P, G", "why_tests_cant": "needs all matrices, all impedances and all (V,I) at once", "anchors": ["src/pyRFtk/ConvertGeneral.py:ConvertGeneral"]}
{"id": "C03", "title": "ConvertGeneral: identity, round trip and composition", "statement": "Converting to the same type and impedances returns S unchanged; converting from (Z1,type1) to (Z2,type2) and back returns the original S; converting via an intermediate (Z2,type2) equals converting directly.", "quantifier": "every S, every three reference impedance sets and types for which the calls return", "why_tests_cant": "algebraic law over a continuum of arguments and all sizes", "anchors": ["src/pyRFtk/ConvertGeneral.py:ConvertGeneral"]}
{"id": "C04", "title": "Reference change agrees with the impedance route", "statement": "For voltage waves and scalar reference impedances ConvertGeneral(Z2,S,Z1) equals S_from_Z(Z_from_S(S,Z1),Z2) whenever the impedance matrix exists (and the analogous admittance route through Y).", "quantifier": "every S with I-S invertible, every non-zero Z1, Z2", "why_tests_cant": "two independent implementations compared on all inputs", "anchors": ["src/pyRFtk/ConvertGeneral.py:ConvertGeneral", "src/pyRFtk/S_from_Z.py:S_from_Z", "src/pyRFtk/Z_from_S.py:Z_from_S"]}
{"id": "C05", "title": "Reference change preserves reciprocity and losslessness", "statement": "If S1 is symmetric then so is the converted matrix (voltage waves with one common impedance per set, and power waves with any impedances); if S1 is unitary for power waves on positive real impedances (or generalized waves on impedances with positive real part) then S2 is unitary; a passive S1 (|b|<=|a| for all a) stays passive.", "quantifier": "every S1, every admissible impedance vector, every size", "why_tests_cant": "physical conservation laws over a continuum", "anchors": ["src/pyRFtk/ConvertGeneral.py:ConvertGeneral"]}
{"id": "C06", "title": "Conversions return the shape they were given", "statement": "S_from_Z, Z_from_S and Y_from_S return an array of the shape they were given: a scalar gives a scalar, a list of m one-port values gives m values, an NxN matrix an NxN matrix, a stack of m matrices a stack of m matrices, and element k of the result depends on element k of the argument only. ConvertGeneral does the same for scalars, matrices and stacks; for a list of one-port values it does not keep its promise ('return value has the shape of S1'): it always returns an array with a single value.", "quantifier": "every argument of every shape accepted by _check_3D_shape_", "why_tests_cant": "ranges over every shape and length", "anchors": ["src/pyRFtk/_check_3D_shape_.py:_check_3D_shape_", "src/pyRFtk/ConvertGeneral.py:ConvertGeneral", "src/pyRFtk/S_from_Z.py:S_from_Z"]}
{"id": "C07", "title": "Ill-shaped arguments are refused", "statement": "A matrix argument that is neither a scalar, a list, a square matrix nor a stack of square matrices is refused by S_from_Z, Z_from_S, Y_from_S and ConvertGeneral, and ConvertGeneral refuses reference impedances that are neither a scalar, one value per port nor one value per frequency and port. The exception is TypeError, not the intended ValueError (formatting the message fails); ValueError is raised for a one-dimensional impedance array of the wrong length and for an unknown wave type.", "quantifier": "every array shape", "why_tests_cant": "infinitely many shapes; the error branch itself contains the defect", "anchors": ["src/pyRFtk/_check_3D_shape_.py:_check_3D_shape_", "src/pyRFtk/ConvertGeneral.py:ConvertGeneral", "src/pyRFtk/rfObject.py:rfObject.setS"]}
{"id": "C08", "title": "S_from_VI is the two-port's scattering matrix", "statement": "S_from_VI(M,Z0) is the unique 2x2 S such that for every (V1,I1) the waves built from (V1,-I1) and (V2,I2)=M(V1,I1) satisfy b=S a; it raises LinAlgError iff none exists and ValueError for other shapes.", "quantifier": "every 2x2 transfer matrix and non-zero Z0", "why_tests_cant": "quantifies over all transfer matrices and terminal conditions", "anchors": ["src/pyRFtk/S_from_VI.py:S_from_VI"]}
{"id": "C09", "title": "Which names are bound to functions after import", "statement": "After 'import pyRFtk' the names _check_3D_shape_ in S_from_Z, Z_from_S, Y_from_S and ConvertGeneral are bound to the function. In S_from_Y, and for Z_from_S and Y_from_S in rfBase and rfArcObj in rfGTL, they are bound to the module instead, so S_from_Y(Y,Zbase) raises TypeError for every argument; the formula in its loop is right (it gives the scattering matrix of the multiport with admittance matrix Y).", "quantifier": "every argument of S_from_Y (and the Z/Y output of tsf2str)", "why_tests_cant": "depends on the import order of the whole package, which a unit test importing one module cannot reproduce", "anchors": ["src/pyRFtk/__init__.py", "src/pyRFtk/S_from_Y.py:S_from_Y", "src/pyRFtk/rfBase.py"]}
{"id": "C10", "title": "Circuit bookkeeping invariant", "statement": "After any sequence of successful addblock, connect, terminate and deembed calls, the circuit's equation matrix has one column per wave and one row per equation label, wave names are distinct, every free port has its two waves, and the number of unknowns exceeds the number of equations by exactly the number of free ports (so getS closes the system to a square one).", "quantifier": "every finite history of building calls with any names and any number of ports", "why_tests_cant": "induction over unbounded histories", "anchors": ["src/pyRFtk/rfCircuit.py:rfCircuit.addblock", "src/pyRFtk/rfCircuit.py:rfCircuit.connect", "src/pyRFtk/rfCircuit.py:rfCircuit.terminate", "src/pyRFtk/rfCircuit.py:rfCircuit.deembed", "src/pyRFtk/rfCircuit.py:rfCircuit.extS"]}
{"id": "C11", "title": "connect implements Kirchhoff's laws", "statement": "The equations connect(p1..pN) adds hold for a wave assignment if and only if all the connected ports have the same voltage and the currents into the joined old ports sum to the current entering through the new port (zero if there is none).", "quantifier": "every N >= 1, every choice of old ports and at most one new port, every wave assignment", "why_tests_cant": "all junction sizes and all assignments", "anchors": ["src/pyRFtk/rfCircuit.py:rfCircuit.connect"]}
{"id": "C12", "title": "getS is the network's scattering matrix", "statement": "For a circuit built by any sequence of addblock/connect/terminate/deembed calls, getS returns S if and only if the network equations (block scattering relations, Kirchhoff junctions, terminations, deembedding identities) have exactly one solution for each set of incident waves at the free ports, and then the outgoing waves are S times the incident ones for every solution; otherwise it raises: LinAlgError when the network is resonant or has no matrix on the Zbase asked for; a block that raises, Portnames that are not the free ports and a circuit without free ports are the only other causes.", "quantifier": "every building history, all block matrices, all wave assignments", "why_tests_cant": "unbounded networks and a continuum of excitations", "anchors": ["src/pyRFtk/rfCircuit.py:rfCircuit.getS", "src/pyRFtk/rfCircuit.py:rfCircuit.extS"]}
{"id": "C13", "title": "Building order does not matter", "statement": "Two building histories which describe the same network (same blocks, junctions and terminations in any order) give the same S-matrix at the same named ports; in particular independent calls commute.", "quantifier": "every pair of histories with equivalent network descriptions", "why_tests_cant": "quantifies over pairs of unbounded histories", "anchors": ["src/pyRFtk/rfCircuit.py:rfCircuit.getS"]}
{"id": "C14", "title": "Portnames fixes the order of the external ports", "statement": "When Portnames is given, the rows and columns of getS, and ports, follow that order: entry (i,j) is the transfer from Portnames[j] to Portnames[i], i.e. the matrix is the permuted matrix of the circuit without Portnames; a Portnames list that is not a permutation of the free ports is rejected with ValueError.", "quantifier": "every circuit, every permutation, every wrong list", "why_tests_cant": "all permutations and circuits", "anchors": ["src/pyRFtk/rfCircuit.py:rfCircuit.extS"]}
{"id": "C15", "title": "terminate loads the port with the given impedance", "statement": "terminate(p,Z=z), terminate(p,Y=1/z) and terminate(p,RC=(z-Zb)/(z+Zb)) are equivalent and impose V_p = -z I_p on the network (Z=0: V=0, Y=0: I=0, nothing given: matched); giving more than one of them, or an unknown keyword, raises ValueError and leaves the circuit unchanged.", "quantifier": "every port, every complex z with z+Zbase non-zero, every circuit", "why_tests_cant": "continuum of loads in unbounded circuits", "anchors": ["src/pyRFtk/rfCircuit.py:rfCircuit.terminate"]}
{"id": "C16", "title": "Terminating after solving equals terminating before", "statement": "Terminating a free port after getS has been called gives afterwards the same S-matrix as a circuit in which that port was terminated before the first getS.", "quantifier": "every circuit, port and load", "why_tests_cant": "interleavings of queries and updates in unbounded histories", "anchors": ["src/pyRFtk/rfCircuit.py:rfCircuit.terminate", "src/pyRFtk/rfCircuit.py:rfCircuit.extS"]}
{"id": "C17", "title": "When a changed termination is visible", "statement": "After terminate(p,...) on an already terminated port getS returns the S-matrix of the circuit with the new load at every frequency (and flags) for which the circuit does not hold a result. At the frequency and flags asked for last it returns the old matrix again, which is not the matrix of the changed circuit.", "quantifier": "every circuit, frequency, port and pair of loads", "why_tests_cant": "depends on the history of getS calls (cache state)", "anchors": ["src/pyRFtk/rfCircuit.py:rfCircuit.terminate", "src/pyRFtk/rfCircuit.py:rfCircuit.getS"]}
{"id": "C18", "title": "getS is a function of the circuit, not of the call history", "statement": "getS(f,Zbase,flags) returns the matrix of the network that the circuit's calls describe, with the block objects as the last addblock, set or getS(params=...) made them, whatever getS calls were made before; two circuits with the same building calls give the same matrix, or both none. Excepted are the frequency and flags asked for last after a termination has been changed (C17). getS(f,params=...) uses the new parameters (and keeps them) unless f and the flags are those of the stored result, in which case params is ignored.", "quantifier": "every history of getS/set/addblock/connect/terminate calls, every f, params, flags", "why_tests_cant": "cache coherence over unbounded histories", "anchors": ["src/pyRFtk/rfCircuit.py:rfCircuit.getS", "src/pyRFtk/rfCircuit.py:rfCircuit.set"]}
{"id": "C19", "title": "Replacing a block equals building with the new object", "statement": "addblock with an existing name and an object with the same number of ports makes the circuit behave as if it had been built with the new object. A different number of ports is refused and nothing but the stored result changes; the exception is KeyError (ValueError only if the circuit has a block called 'object').", "quantifier": "every circuit, block and replacement object", "why_tests_cant": "unbounded circuits and histories", "anchors": ["src/pyRFtk/rfCircuit.py:rfCircuit.addblock"]}
{"id": "C20", "title": "What a refused building call leaves behind", "statement": "If terminate raises, the circuit is unchanged; if addblock raises, at most the stored result is dropped, and getS gives what it gave before; connect with two new names or with a new name containing a dot raises ValueError and changes nothing. A connect of a free port with a used one, and a deembed of an unknown port, raise ValueError but do change the circuit: connect loses the free port, deembed leaves its new port behind.", "quantifier": "every circuit and every invalid argument list", "why_tests_cant": "every failure point in every history", "anchors": ["src/pyRFtk/rfCircuit.py:rfCircuit.connect", "src/pyRFtk/rfCircuit.py:rfCircuit.deembed"]}
{"id": "C21", "title": "A circuit cannot grow after it has been solved", "statement": "After a getS that returned, terminating free ports and replacing blocks work as before (C16, C19), but addblock of a new block and connect, although accepted, make every later getS raise, at every frequency.", "quantifier": "every circuit and every interleaving of getS with building calls", "why_tests_cant": "interleavings in unbounded histories", "anchors": ["src/pyRFtk/rfCircuit.py:rfCircuit.extS", "src/pyRFtk/rfCircuit.py:rfCircuit.addblock"]}
{"id": "C22", "title": "Solution is the network's solution for the excitation", "statement": "Solution(f,E,Zbase) of a circuit whose port order is settled (no Portnames, or a getS returned before) returns for every node of the circuit itself V, I, Vf, Vr with V=Vf+Vr and I=(Vf-Vr)/Zbase; these voltages and currents satisfy every block relation, junction and termination; at each free port Vf is the requested excitation and Vr = (S E) with S = getS(f,Zbase).", "quantifier": "every solvable circuit, excitation and reference impedance", "why_tests_cant": "continuum of excitations and unbounded networks", "anchors": ["src/pyRFtk/rfCircuit.py:rfCircuit.Solution"]}
{"id": "C23", "title": "When Solution does not depend on an earlier getS", "statement": "Solution called twice with the same arguments gives the same answer twice, if the circuit has no Portnames or a getS has returned before. Otherwise it need not: with Portnames in another order than the ports were created, the first call uses the excitations in the wrong order.", "quantifier": "every circuit, with or without Portnames", "why_tests_cant": "depends on the call history", "anchors": ["src/pyRFtk/rfCircuit.py:rfCircuit.Solution", "src/pyRFtk/rfCircuit.py:rfCircuit.extS"]}
{"id": "C24", "title": "Nested circuits behave like the flattened network", "statement": "Using a circuit as a block of another circuit gives the same external S-matrix as the flat network consisting of the union of both sets of equations, at any depth, and the inner circuit's own reference impedance does not matter (except through its loads given as reflection coefficients: circuits with such loads and another reference impedance are excepted). Also excepted is a sub-circuit with Portnames in another order that has not been asked for its S-matrix before: it is used with its ports in the wrong order.", "quantifier": "every nesting depth and every inner circuit and reference impedance", "why_tests_cant": "structural induction over unbounded hierarchies", "anchors": ["src/pyRFtk/rfCircuit.py:rfCircuit.getS"]}
{"id": "C25", "title": "Deembedding undoes embedding", "statement": "deembed with internal port pairs removes the chain attached to the port: connecting a block to a port and deembedding the same block restores the original S-matrix.", "quantifier": "every circuit, port and invertible two-port", "why_tests_cant": "all circuits and blocks", "anchors": ["src/pyRFtk/rfCircuit.py:rfCircuit.deembed", "src/pyRFtk/rfObject.py:rfObject.deembed"]}
{"id": "C26", "title": "set addresses exactly the named attribute", "statement": "circuit.set('a.b.attr',v), set('a.b',{'attr':v}), set(('a.b',{'attr':v})) and set(a={'b':..}) in nested keyword form change attribute attr of the object of block b in block a and nothing else, return whether the value changed, and if so drop the stored results of the object and of every circuit above it; several attributes or keywords act one after the other; an unknown block raises KeyError, an unknown attribute or a value without attribute path raises ValueError, without any change. set({...}) is refused with ValueError. A call that raises after having changed an attribute leaves the stored results of the circuit in place.", "quantifier": "every path depth, every hierarchy", "why_tests_cant": "unbounded hierarchies and paths", "anchors": ["src/pyRFtk/rfCircuit.py:rfCircuit.set"]}
{"id": "C27", "title": "addblock port naming", "statement": "addblock names the new block's waves and free ports '<block>.<port>' in the order of the object's ports, using the mapping/list given (default: the object's own names, or numbers for an array); it rejects mappings naming a non-existing port, and port lists of the wrong length, with ValueError. An accepted mapping is emptied: the caller's dict is {} afterwards.", "quantifier": "every object port list and every ports argument", "why_tests_cant": "all lists and mappings", "anchors": ["src/pyRFtk/rfCircuit.py:rfCircuit.addblock"]}
{"id": "C28", "title": "circuit.maxV reports the largest voltage", "statement": "For a circuit whose port order is settled, with an excitation for every free port, maxV, when it returns, returns a value which is >= the voltage magnitude at every node of the circuit and >= each block's own maxV, and which is attained at the node it names; it returns when the position of every node is known and the blocks' maxV return; a missing excitation raises ValueError. It raises whenever a named (dot-free) port has been used up by a later connect or terminate.", "quantifier": "every circuit and excitation", "why_tests_cant": "max over unbounded node sets", "anchors": ["src/pyRFtk/rfCircuit.py:rfCircuit.maxV"]}
{"id": "C29", "title": "rfObject returns tabulated data exactly", "statement": "After setS(f,S) calls in any order with distinct frequencies (and any getS calls in between), getS(f) on the object's own Zbase returns exactly the S stored for f, and on another Zbase its conversion; frequencies handed over in increasing order stay in that order; a frequency that is not stored is interpolated from exactly the stored data. After convert2newZbase the object is the same network at every stored frequency. Exceptions: data handed over such that the last two frequencies of a setS are not increasing make every interpolation raise IndexError for ever; setS([3,1,2]) counts as sorted; after convert2newZbase an existing interpolation is still the one on the old impedance.", "quantifier": "every sequence of setS calls", "why_tests_cant": "unbounded histories and frequencies", "anchors": ["src/pyRFtk/rfObject.py:rfObject.setS", "src/pyRFtk/rfObject.py:rfObject.getS", "src/pyRFtk/rfObject.py:rfObject._sort_fs_"]}
{"id": "C30", "title": "sortports permutes ports and matrices consistently", "statement": "sortports keeps the entry of every stored S-matrix between any two port names and every frequency; with a list, these ports come first and the others keep their order, without, they are sorted; a list with an unknown or repeated name raises ValueError; getS of a stored frequency agrees. Exceptions: an interpolation made before keeps the old port order, and an object that got its port names from setS raises IndexError.", "quantifier": "every port list, key order and table", "why_tests_cant": "all permutations and sizes", "anchors": ["src/pyRFtk/rfObject.py:rfObject.sortports"]}
{"id": "C31", "title": "rfObject.deembed removes the attached two-ports", "statement": "deembed({port: (length, Z)}) on an object whose ports were embedded through lines gives back the S-matrices of the original object at every frequency, and it returns when the partially deembedded objects have scattering matrices. The other documented forms (a length alone, a dict of rfTRL arguments) raise TypeError.", "quantifier": "every object, every invertible two-port per port", "why_tests_cant": "all sizes and matrices", "anchors": ["src/pyRFtk/rfObject.py:rfObject.deembed"]}
{"id": "C32", "title": "rfObject/rfBase maxV reports the voltage magnitude", "statement": "maxV(f,E,Zbase) of rfBase and rfRLC returns the largest |V| over the object's ports for excitation E, the first port at which it occurs and all values; unknown ports are refused with ValueError by rfBase. rfObject.maxV compares complex numbers instead of magnitudes, so its result can be smaller than |V| at a port.", "quantifier": "every S-matrix and excitation", "why_tests_cant": "continuum", "anchors": ["src/pyRFtk/rfBase.py:rfBase.maxV", "src/pyRFtk/rfObject.py:rfObject.maxV"]}
{"id": "C33", "title": "Touchstone write/read round trip", "statement": "ReadTSF of the text produced by WriteTSF (as text or as a file) for frequencies fs and matrices Ss returns the same frequencies and the same matrices up to number formatting, exactly if the numbers are written exactly; with RI the error is at most that of the written real and imaginary parts. The same holds for tsf2str, except that two-port matrices come back transposed, and frequencies are rounded to integers when the format chosen from the frequency step has no decimals.", "quantifier": "every number of ports and frequencies, every matrix, each of RI/MA/DB", "why_tests_cant": "all sizes, and the layout rules differ for N=1,2,3,>=4", "anchors": ["src/pyRFtk/WriteTSF.py:WriteTSF", "src/pyRFtk/ReadTSF.py:ReadTSF", "src/pyRFtk/rfBase.py:rfBase.tsf2str"]}
{"id": "C34", "title": "ReadTSF: records, option line, port names", "statement": "Data lines are grouped so that a line with an odd number of values starts a new frequency record whose values are the matrix entries row by row. The words of the option line may come in any order, the last of a kind counts and the defaults are S, MA and GHz; the frequencies are returned in the unit asked for (GHz when none is); after R there must be 1 or N impedances, and S data come back moved from these to Zbase (50 when not given), Z data converted to S on Zbase or else on R. Plain comments, blank lines and trailing comments never influence the result; a second option line is rejected. Port names are the list given (if its length is N), else those of the last !PORTS comment before the data, else numbered names. Exceptions: comments that mention port impedances or gammas do influence the result; a text whose option line has no R, or says Y, is never accepted; when a list of port names of another length is given, the names of the file are taken without a check of their number.", "quantifier": "every touchstone text", "why_tests_cant": "all texts", "anchors": ["src/pyRFtk/ReadTSF.py:ReadTSF", "src/pyRFtk/getlines.py:getlines"]}
{"id": "C35", "title": "getlines: lines of strings and files", "statement": "Iterating over getlines of a path or of a multi-line string with the same content yields the same lines if the content has no carriage return and does not end in a newline, and repeated calls yield them again. Otherwise not: a string ending in a newline gives an extra empty line, a string keeps carriage returns, an open file can be read only once, and a list of strings raises AttributeError.", "quantifier": "every text", "why_tests_cant": "all contents", "anchors": ["src/pyRFtk/getlines.py:getlines"]}
{"id": "C36", "title": "rfRLC is the series/shunt two-port it documents", "statement": "rfRLC.getS(f,Zbase,params) is the scattering matrix of the two-port made of the shunt admittance and series impedance defined by Rs,Ls,Cs,Rp,Lp,Cp with the values of params replaced (for good); away from f=0 it returns whenever that matrix exists; it is reciprocal; passive for non-negative parameters (and then always returns), lossless without resistors; consistent between reference impedances. Exception: at f=0 with neither a series capacitor nor a shunt inductor the matrix is the one on 1 Ohm, whatever Zbase.", "quantifier": "every parameter set, frequency and Zbase", "why_tests_cant": "continuum of parameters incl. boundary values", "anchors": ["src/pyRFtk/rfRLC.py:rfRLC.getS"]}
{"id": "C37", "title": "rfTRL scattering matrix", "statement": "A line with constant parameters is reciprocal; lossless lines are unitary and lossy ones passive on every positive real reference impedance (for positive real characteristic impedance); the zero length line is a through; cascading L1 and L2 equals the line of length L1+L2; on its own characteristic impedance it is matched with transmission exp(-gamma L); reference impedances are consistent. A line of non-zero length with gamma = 0 (lossless, f = 0) raises ZeroDivisionError instead of being a through.", "quantifier": "every length, propagation constant, impedance, reference impedance", "why_tests_cant": "continuum of parameters", "anchors": ["src/pyRFtk/rfTRL.py:rfTRL.solveVI", "src/pyRFtk/rfTRL.py:rfTRL.getS"]}
{"id": "C38", "title": "rfTRL voltage/current profile", "statement": "After any history of calls in which no set raised, VISWs returns V(x), I(x) along the line that agree at both ends with the port voltages and currents for the excitation and are, in between, two waves exp(+-gamma x) with ratio Zc; the answer does not depend on the earlier calls. After a set that raised having changed the length, the profile of the old length is still returned.", "quantifier": "every line and excitation and position", "why_tests_cant": "continuum", "anchors": ["src/pyRFtk/rfTRL.py:rfTRL.VISWs"]}
{"id": "C39", "title": "rfCoupler is a lossless reciprocal 4-port with the requested coupling", "statement": "The coupler matrix is symmetric and unitary at every frequency on every positive reference impedance; at the centre frequency the amplitude coupled is the requested one (kc, or 10^(-|kcdB|/20), or 3 dB), nothing is reflected and nothing comes out of the fourth port; kc together with kcdB, Lc with f0 and a number of ports other than 4 raise ValueError. kc=0 (no coupling) gives a 3 dB coupler.", "quantifier": "every coupling and frequency", "why_tests_cant": "continuum", "anchors": ["src/pyRFtk/rfCoupler.py:rfCoupler"]}
{"id": "C40", "title": "rfArcObj reflection", "statement": "rfArcObj.getS(f,Zbase) with a finite inductance L is the reflection of that inductance on Zbase, of unit magnitude for real f L and Zbase; a list of frequencies gives one value per frequency on the object's own Zbase. On another Zbase a list gives a single value.", "quantifier": "every L, f, Zbase and frequency list", "why_tests_cant": "continuum and all list lengths", "anchors": ["src/pyRFtk/rfArcObj.py:rfArcObj.getS"]}
{"id": "C41", "title": "maxfun never underestimates for increasing abscissae", "statement": "For sampled data with increasing abscissae maxfun(xs,ys) returns a value at least as large as every sample, at an abscissa inside the sampled interval. For decreasing abscissae it can return an abscissa as the value.", "quantifier": "every sample set of at least three distinct abscissae", "why_tests_cant": "all sample lengths and values", "anchors": ["src/pyRFtk/maxfun.py:maxfun"]}
{"id": "C42", "title": "TLresolver terminates, keeps its inputs and solves what can be solved", "statement": "The transmission-line parameter resolver always terminates; unknown keywords raise ValueError; parameters given by the user keep their value, except that gTL is replaced by 0 when neither sigma nor tand (nor the other loss parameters) is given; a parameter is only computed when all the inputs of its formula are known, and has the value of its formula; gamma and Zc satisfy the line equations with rTL, LTL, gTL, CTL; LTL, CTL, Z0TL and vr belong together when at most two of them are given; Zc and gamma are known exactly for the sets of parameters described by a closed criterion. A given RsO without RsI raises AttributeError, and Rs is never used.", "quantifier": "every subset of given parameters and all values", "why_tests_cant": "all 2^n subsets of inputs and a continuum of values", "anchors": ["src/pyRFtk/resolveTLparams.py:TLresolver"]}
{"id": "C43", "title": "TLresolver formulas hold for a physical line, with listed exceptions", "statement": "Each formula of the resolver, evaluated on the parameters of a physical lossy line, gives the parameter of that line, and what is recomputed from other parameters is the original value, except mur and epsr from vr (right only if the other one is 1), A from AdB (wrong sign), A from rTL and gTL and rTLO from RsO (the inner conductor's resistance is used).", "quantifier": "all physical parameter values", "why_tests_cant": "continuum", "anchors": ["src/pyRFtk/resolveTLparams.py"]}
{"id": "C44", "title": "findpath honours the documented search order", "statement": "findpath returns a match from the first directory of the documented list (environment variable, then userdirs, then appdirs) that contains one; it raises IOError only if no directory contains one or, with missingOK=False, a missing directory comes before; existspath returns '' instead of raising.", "quantifier": "every directory tree and search list", "why_tests_cant": "all file systems", "anchors": ["src/pyRFtk/findpath.py:findpath"]}
{"id": "C45", "title": "Object identifiers are unique", "statement": "Automatically generated object identifiers never repeat when objects are constructed one after the other. With threads they can: two constructions may read the same counter.", "quantifier": "every number and interleaving of constructions", "why_tests_cant": "unbounded histories", "anchors": ["src/pyRFtk/config.py:_newID"]}
{"id": "C46", "title": "rfGTL variable resolution", "statement": "Symbolic variables are replaced by their numeric value whatever the order of definition, the loop ends, and the caller's values take precedence over the model's global over its local ones, for definitions that are not circular and do not add or multiply variables given as text. A definition whose evaluation fails (other than by NameError or TypeError) makes the loop raise, and it raises nothing else. A circular definition loops for ever or is left unresolved without any report; sums and products with variables given as text join or repeat the texts.", "quantifier": "every variable dictionary; python's parser and number operations are arguments", "why_tests_cant": "all dependency graphs", "anchors": ["src/pyRFtk/rfGTL.py:rfGTL"]}
{"id": "C47", "title": "str_dict accumulates over calls", "statement": "The first call of str_dict in a process returns the text of its argument; every later call returns the texts of all the arguments so far, one after the other.", "quantifier": "every history of calls", "why_tests_cant": "history dependence", "anchors": ["src/pyRFtk/str_dict.py:str_dict"]}
{"id": "C48", "title": "scaleVSW scales every profile linearly", "statement": "scaleVSW(VSW,s) multiplies every voltage of a (nested) VSW structure by s and changes no position and no key; scaling by a then b equals scaling by a*b, for structures in which no sequence occurs twice. A sequence that occurs twice is scaled twice, a (positions, voltages) tuple raises TypeError and any other value ValueError.", "quantifier": "every nested VSW dictionary", "why_tests_cant": "unbounded nesting", "anchors": ["src/pyRFtk/plotVSWs.py:scaleVSW"]}
{"id": "C49", "title": "rfBase returns its tabulated matrices", "statement": "An rfBase built from a table of frequencies and matrices on Zbase returns, for a frequency of the table, the matrix of its first entry for that frequency, converted to the requested reference impedance (the same network); it refuses every other frequency with a ValueError; for a list of frequencies it returns one such matrix per frequency, in order, and refuses the list if one of them is not in the table.", "quantifier": "every table, every frequency or list of frequencies, every reference impedance", "why_tests_cant": "all tables, frequencies and impedances", "anchors": ["src/pyRFtk/rfBase.py:rfBase.getS", "src/pyRFtk/rfBase.py:rfBase.get_1S"]}
{"id": "C50", "title": "Solution also returns the nodes inside sub-circuits", "statement": "For a circuit whose blocks are devices or circuits (nested to any depth, sub-circuits added under their own port names), Solution(f, E, Zbase, nodes) that returns gives, for every node of the circuit and for every node 'block.node', 'block.block.node', ... of its sub-circuits that was asked for (all of them with nodes=None), voltage, current, forward and reflected wave on Zbase of one assignment that satisfies the network of the circuit and of every sub-circuit at once and that has the given excitations as forward waves at the free ports; every such assignment has these values; no name is returned that is not such a node, and none twice. It returns whenever E names all ports and no getS of the circuit or of a sub-circuit fails. Exception: a sub-circuit that was added under other port names makes Solution of all nodes raise.", "quantifier": "every nesting depth, every circuit and sub-circuit reached by any history of calls (Portnames order settled), every excitation, Zbase, list of nodes, frequency", "why_tests_cant": "all nestings, networks, histories and excitations", "anchors": ["src/pyRFtk/rfCircuit.py:rfCircuit.Solution"]}
{"id": "C51", "title": "Get_internalSmatrix relates the waves at the chosen nodes", "statement": "Get_internalSmatrix(f, nodes, Zbase) with as many nodes of the circuit as it has ports (a node marked '<' has its two waves exchanged) returns, if it returns, the one matrix that gives the waves away from the nodes from the waves towards them, on Zbase, in every assignment of voltages and currents that satisfies the network; it returns unless some assignment excited at a port has no wave towards any of the nodes (LinAlgError). For the ports themselves, in the order of getS, it is the matrix of getS. With fewer nodes than ports a matrix is always returned: it relates the waves if any matrix does, and is meaningless otherwise. With more nodes it always raises ValueError. Moreover what Solution returns is linear in the excitation.", "quantifier": "every circuit reached by any history of calls, every list of its nodes, marked or not, every frequency and Zbase", "why_tests_cant": "all networks, node lists, impedances and solutions", "anchors": ["src/pyRFtk/rfCircuit.py:rfCircuit.Get_internalSmatrix", "src/pyRFtk/rfCircuit.py:rfCircuit.Solution"]}
{"id": "C52", "title": "An rfGTL is the network its description says", "statement": "An rfGTL made of a description (blocks with named ports, '[oc]', '[sc]' and dict ports being loads) behaves as the network one reads off it: the S-matrix that getS returns, in the order of 'ports' and on Zbase, admits exactly the port voltages and currents that go with an assignment to all block ports in which every block does what its object does, each terminated port has its load, all ports of one name have one voltage and the currents into the blocks add up to the current entering from outside (0 for a name that is not declared). This holds after any number of getS calls. A description is accepted iff names and sizes fit (the declared ports are those used by exactly one block, at most one load per block, positions only for declared ports) and the network does not resonate at the trial frequency; touchstone data replace the answer but the circuit must still be solvable.", "quantifier": "every description (any number of blocks, ports per block, shared names), impedance, frequency, flags and sequence of getS calls", "why_tests_cant": "all descriptions, i.e. all graphs of blocks, and all later calls", "anchors": ["src/pyRFtk/rfGTL.py:rfGTL.__init__", "src/pyRFtk/rfGTL.py:rfGTL.getS", "src/pyRFtk/rfGTL.py:rfGTL.getSgtl"]}
{"id": "C53", "title": "rfGTL puts blocks and ports where the given positions say", "statement": "The search for positions in the constructor of rfGTL always ends. A block that is connected through ports (terminated ones not counted) to a given position is put where every layout that agrees with the given positions and the port distances of the blocks puts it; every other block stays at -10; a declared port is at its block's position plus its distance there, thus at the given position if there is one and the data are consistent. getS moves nothing. A position given for a name that no block uses (also through the first port of a block being '[oc]' or '[sc]') makes the constructor raise.", "quantifier": "every description and every consistent layout", "why_tests_cant": "all graphs of blocks and all orders in which positions propagate", "anchors": ["src/pyRFtk/rfGTL.py:rfGTL.__init__"]}
{"id": "C54", "title": "A copy of a circuit answers as the circuit does", "statement": "A copy of a circuit (circuit.copy(), copy.copy, copy.deepcopy), at whatever point it is made and however deep circuits are nested in it, answers any sequence of getS and Solution calls exactly as the original would, with the same results and the same exceptions; its first S-matrix is that of the network built on the original. A circuit of devices copied before its first getS is indistinguishable from the original for all later calls. Finding: this ends with the first port terminated on the copy of a circuit that was solved before: terminate returns, but from then on every getS and Solution of the copy raises (KeyError where the original, treated alike, returns an S-matrix), because the copy's Portnames no longer is its list of ports.", "quantifier": "every circuit state, every nesting depth, every sequence of calls", "why_tests_cant": "all circuits, all nesting depths and all sequences of calls on the copy", "anchors": ["src/pyRFtk/rfBase.py:rfBase.__deepcopy__", "src/pyRFtk/rfBase.py:rfBase.copy", "src/pyRFtk/rfCircuit.py:rfCircuit.extS", "src/pyRFtk/rfCircuit.py:rfCircuit.terminate"]}
{"id": "C55", "title": "addblock of a dotted name replaces the block inside the sub-circuit", "statement": "addblock('a.b...c', obj) where a, b, ... are sub-circuits and c is an existing block with as many ports as obj returns and puts obj in that block's place and nowhere else: after any sequence of such calls and getS calls every S-matrix returned is that of the network changed in this way, the inner circuits keeping their ports. A first name that is no block raises ValueError, a path through a device AttributeError; a refused call only drops the stored matrices. Finding: a last name that the sub-circuit does not have is not refused; the call returns, but from then on no getS and no Solution of the circuit returns.", "quantifier": "every circuit history, nesting depth, path and sequence of such calls", "why_tests_cant": "all nestings, all paths and all interleavings with getS", "anchors": ["src/pyRFtk/rfCircuit.py:rfCircuit.addblock", "src/pyRFtk/rfBase.py:rfBase.__deepcopy__"]}
{"id": "C56", "title": "rfObject made from an array is that multiport at every frequency", "statement": "rfObject(M) for a square matrix M answers getS(f) with M for every frequency f in every unit and every list of frequencies, whatever was asked before (with the 'dB' interpolation if M has no zeros), and on another reference impedance with the matrix of the same network. Its ports are the names given, which must be as many as M has rows, or m001, m002, ..., all different. Anything that is not a square matrix raises TypeError, a wrong number of names or an additional touchstone ValueError. Finding: once a matrix is stored for a frequency below 1e18, every frequency not in the table raises IndexError.", "quantifier": "every matrix and size, frequency, unit, interpolation mode, reference impedance, sequence of getS calls", "why_tests_cant": "all matrices, sizes, frequencies and histories", "anchors": ["src/pyRFtk/rfObject.py:rfObject.__init__", "src/pyRFtk/rfObject.py:rfObject._interp_", "src/pyRFtk/rfObject.py:rfObject.getS"]}
{"id": "C57", "title": "rfObject survives pickling", "statement": "An rfObject on which any setS and getS calls were made answers every further sequence of setS and getS calls after a pickle round trip exactly as it would have without, results and exceptions. After any calls the round trip keeps ports, reference impedance and table, and what is interpolated afterwards is the interpolation of that table (also where the object itself would use a stale one). Finding: its ports can no longer be sorted; where sortports would return it raises IndexError, with ports and matrices already permuted.", "quantifier": "every history of calls before and after the round trip, every table", "why_tests_cant": "all histories", "anchors": ["src/pyRFtk/rfObject.py:rfObject.__getstate__", "src/pyRFtk/rfObject.py:rfObject.__setstate__", "src/pyRFtk/rfObject.py:rfObject.sortports"]}
{"id": "C58", "title": "Blocks are found by their path, in whatever way they are asked for", "statement": "listBlocks lists the dotted path of every block at every depth, each once, and nothing else; object(path) returns exactly for these paths, and then object and findObj return the same block, the one that set(path, ...) changes. An unknown name makes object raise KeyError and findObj return None; a name below something that is no circuit makes both raise AttributeError. Finding: findObj takes the empty path for the circuit itself and ignores a '.' at the end, where object raises.", "quantifier": "every tree of circuits of any depth, every path text", "why_tests_cant": "all nestings, all texts", "anchors": ["src/pyRFtk/rfCircuit.py:rfCircuit.findObj", "src/pyRFtk/rfCircuit.py:rfCircuit.object", "src/pyRFtk/rfCircuit.py:rfCircuit.listBlocks", "src/pyRFtk/rfCircuit.py:rfCircuit.set"]}
{"id": "C59", "title": "A line with position dependent parameters obeys the telegrapher's equations", "statement": "For an rfTRL whose impedance and admittance per length depend on the position, getS returns the scattering matrix, on the reference impedance asked for, of the two-port whose voltage V(x) and current I(x) obey V' = z(x) I, I' = y(x) V between the ends; it is reciprocal, unitary when z and y have no real part anywhere, passive when their real parts are nonnegative, and then it is defined whenever the node points can be found. Matrices on different references are related by ConvertGeneral; a list of frequencies gives the matrices of the single ones; length 0 with a given step is a direct connection. VISWs returns the values at node points from 0 to L of the solution excited by the given waves. No call changes what later calls return, and nothing can be set (ValueError). Findings: the frequency is taken for the angular frequency when the node points are laid out, so that the steps are 2 pi too long; length 0 with the default step raises ZeroDivisionError.", "quantifier": "all parameter functions, lengths, steps, frequencies, references, excitations, histories of calls; odeint taken to solve the equations it is given", "why_tests_cant": "all functions of the position and all histories", "anchors": ["src/pyRFtk/rfTRL.py:rfTRL.solveVI", "src/pyRFtk/rfTRL.py:rfTRL.getS", "src/pyRFtk/rfTRL.py:rfTRL.VISWs", "src/pyRFtk/rfTRL.py:rfTRL.set"]}
{"id": "C60", "title": "Keywords of rfGTL blocks: two names, texts, units", "statement": "A block of an rfGTL description is accepted exactly when its ports are given, no keyword is given under both of its names (ports/Portnames, L/length, Z0TL/Z, xpos/relpos), every text evaluates to something usable, and Zbase is not among the keywords; a keyword under both names, or no ports, raises ValueError. The ports, the position and every keyword of the object made are what is written for them, texts evaluated, ID and OD in mm, rho in micro Ohm m, LTL, Ls, Lp, Larc in nH, CTL, Cs, Cp in pF, all else in SI; neither the order of the keywords nor which of the two names is used matters. A block with Ls, Cs, Rs, Lp, Cp or Rp is the two-port of these elements (so C36 holds of it with these units). Finding: no block can describe an arc, since Larc is looked up among the keywords of the call of rfGTL; given there, it makes an arc of every block without lumped elements.", "quantifier": "all descriptions of a block with any keywords and values, any evaluation of texts, any keywords of the call", "why_tests_cant": "all combinations of keywords, orders and values", "anchors": ["src/pyRFtk/rfGTL.py:rfGTL.__init__", "src/pyRFtk/rfGTL.py:rfGTL._remap_", "src/pyRFtk/rfRLC.py:rfRLC.__init__"]}
{"id": "C61", "title": "Circuits of reciprocal, passive or lossless elements", "statement": "If every element of a circuit is reciprocal (sum v i' = sum v' i for any two states of its ports; equivalently the matrix its getS returns is symmetric), the matrix the circuit's getS returns is symmetric, whatever the loads and the reference impedances. If every element is passive (never delivers power; equivalently no wave vector comes out of its matrix stronger than it goes in, on a positive impedance), the loads are passive (Re Z >= 0, Re Y >= 0, |RC| <= 1) and the reference impedances positive, the matrix returned is passive. If elements and loads are lossless (no net power; Re Z = 0, Re Y = 0, |RC| = 1) it is unitary. This holds with sub-circuits as blocks, at any nesting depth, their elements and loads being meant. deembed calls are excluded: they take a network away.", "quantifier": "all circuits and histories of calls without deembed, nesting depths, block objects, loads, frequencies, flags, reference impedances", "why_tests_cant": "all topologies, sizes, values and depths", "anchors": ["src/pyRFtk/rfCircuit.py:rfCircuit.getS", "src/pyRFtk/rfCircuit.py:rfCircuit._solve", "src/pyRFtk/rfCircuit.py:rfCircuit.connect", "src/pyRFtk/rfCircuit.py:rfCircuit.terminate", "src/pyRFtk/rfCircuit.py:rfCircuit.addblock"]}
{"id": "C62", "title": "Circuits of rfRLC, rfTRL, rfCoupler and tabulated devices, end to end", "statement": "For a circuit built from rfRLC objects, rfTRL lines with constant parameters, rfCouplers and rfBase tables, what getS(f) returns (f != 0) is the scattering matrix, on the impedance asked for, of the network in which each RLC block obeys the laws of its resistors, coils and capacitors, each line the travelling wave law of its length and parameters (a direct connection for length 0), each coupler and table its scattering matrix. The matrix is symmetric for all element values (lines not degenerate, tables symmetric), also through nested circuits; passive when the element values are non-negative, the lines do not amplify and loads and tables are passive; unitary when everything is lossless. getS answers for physical elements unless the network oscillates, and it cannot oscillate when every element is lossy (series resistance, decaying line, strictly passive table), the loads are passive and every node is connected to ground through joints and elements. set('block', name=value) gives each of the values Rs, Ls, Cs, Rp, Lp, Cp of an RLC block, or the length (with the position of its far port) and reference impedance of a line, the value named and keeps the others; a name the object does not have is refused with ValueError after the ones before it are set; from then on getS answers for the network with the changed element. Finding: after a set() that changes a value, len() of an rfRLC raises TypeError until the next getS, so it cannot be added to a circuit.", "quantifier": "every history of addblock, connect, terminate, set, getS calls; all element values, frequencies other than 0, reference impedances, and depths of nesting", "why_tests_cant": "infinitely many circuits, element values, impedances and frequencies", "anchors": ["src/pyRFtk/rfCircuit.py: addblock, connect, terminate, getS", "src/pyRFtk/rfRLC.py: getS, set, __len__", "src/pyRFtk/rfTRL.py: getS, solveVI, set", "src/pyRFtk/rfCoupler.py: get1S", "src/pyRFtk/rfBase.py: getS, get1S, set"]}
{"id": "C63", "title": "Parameters given with a block: addblock(name, obj, params={...})", "statement": "The params given with a block are used at every getS: in the network whose scattering matrix getS returns, an rfRLC block obeys the laws for the values of its params (for the names not in them those of the object), an rfTRL block those of a line of the length given in its params, and couplers and tables are not affected; with empty params the block is as without. A line with params other than L and Zbase makes every getS raise. Symmetry, passivity and losslessness of the matrix, at any nesting, and that getS answers, hold as for circuits of the elements so changed. Findings, when circuit.set is used on such a block: for a line the params always win, so that set('line', L=...) is accepted but changes nothing; for an RLC block the params win over values set before the first getS, but values set after it win (the first getS empties the params), so that the same calls in another order give another circuit.", "quantifier": "all circuits of rfRLC, rfTRL, rfCoupler and table blocks with any params dicts, histories of calls, frequencies other than 0, values, keywords set, impedances, nesting depths", "why_tests_cant": "all values, params, topologies and orders of getS and set calls", "anchors": ["src/pyRFtk/rfCircuit.py: addblock, getS, set", "src/pyRFtk/rfRLC.py: getS, set", "src/pyRFtk/rfTRL.py: getS, set", "src/pyRFtk/rfBase.py: getS"]}
{"id": "C64", "title": "resolve_xpos gives ports their positions", "statement": "resolve_xpos, on a circuit built by any history of calls: it returns exactly when no free port is a port of a block (all were replaced by new ports), and then sets the position of every port to 0 and changes nothing else. Otherwise it raises and leaves the circuit as it was: RuntimeError when the first port b.q with a dot is a port of the object of block b (or the object has no port names), ValueError when the object calls its ports otherwise, KeyError when there is no block b. Finding: so it never does what it is for, building the positions from those of the blocks: the position of a block is a number, and the code subscripts it.", "quantifier": "all reachable circuits, block objects, port names", "why_tests_cant": "all histories and port names", "anchors": ["src/pyRFtk/rfCircuit.py: resolve_xpos, addblock"]}
