# Formal model of scalable_garbling: design

Everything is in `rocq/theories` (Coq 8.16.1).  `/repo` is read as text, never built.

## Trusted base

* Coq's kernel (`coqc`, re-checked by `coqchk`).  Every theorem named in `MANIFEST.json` has a
  `Print Assumptions` command beneath it in its `P_*.v` file; each prints
  "Closed under the global context", that is, no axioms, except C78_float_ceil and
  C78_float_ceil_sharp (`P_Float`), the C80 theorems and C72_parameters_keep_bounds (`P_LpnParam`),
  which are about real numbers and list (some of) four axioms of the standard library:
  `ClassicalDedekindReals.sig_not_dec`, `ClassicalDedekindReals.sig_forall_dec`,
  `FunctionalExtensionality.functional_extensionality_dep` and `Classical_Prop.classic`.  (`coqchk -o` lists, for the
  libraries loaded, the opaque module fields of mathcomp and ssreflect such as
  `BigOp.bigopE`, `SubsetDef.subsetEdef`; these are sealed definitions of mathcomp, with bodies, and likewise
  those of `Coq.Reals.Rdefinitions`.)
* The fidelity of the hand-written model to the Rust and C source; each model definition cites
  the lines it models and says what it simplifies.
* Third-party behaviour that is modelled from its documentation: tokio `mpsc`/`oneshot` channels
  (unbounded FIFO, reliable, in-process), TCP as a reliable FIFO byte stream, `ndarray` row-major
  `into_shape`/`dot`/`select`, `bincode` 1.x default encoding of `Vec<T>` (8-byte little-endian
  length and then the elements), `vint64`, `HashMap`, `sort_by` (stable), rayon `par_iter` as
  order-preserving `map`, `BufRead::lines`, `str::split`.  `seahash`, `Sha256`, `ChaCha12Rng`,
  `thread_rng` are arbitrary functions or coin streams over which theorems quantify.

## What is modelled

| source | model | not modelled |
|--------|-------|--------------|
| `math/galois` (C tables and `mod.rs`) | `GaloisModel`, `GaloisHist` (process-wide cells), `CodecModel` | `bindings.rs` layout checks, other routines of the C library |
| `math/mod.rs` | `MathModel`, `MatFileModel` | the file system |
| `sharing.rs` | `SharingModel` | |
| `circuit.rs` | `CircuitModel` | the file system, `Debug` output |
| `protocol/mod.rs` | `ProtoIdModel` (ids), `MachineModel` (channels) | |
| `protocol/network.rs` | `FrameModel` (frames), `RouterModel` (receive router), `RouteModel` (send and local routers, connection set-up), `MachineModel` (what protocols see: send, receive, gather, sync), `StackModel` (all of these together: tasks, oneshot channels, request channel, routers, network) | sleeping, reconnecting, time, memory exhaustion |
| `protocol/core.rs` | `CoreModel` | |
| `protocol/preproc.rs` | `PreprocModel`, `PreprocCodec` | |
| `protocol/garble.rs` | `LpnModel` (nonces), `GarbleModel` | the bodies of SHA-256 and ChaCha |
| `bin/garble.rs`, `bin/preproc.rs` | `PipeModel` (repetition loop), `BinModel` (from file texts to the last repetition), `SaveModel` (collecting the figures; process exit) | command line, log messages, wall-clock time, JSON |
| `bin/preproc_size.rs` | `BinModel` | command line, printing |
| `data/binsup_mat` | `SupmatModel` | |
| `data/circ` | `Sub64File` (text of `sub64.txt`) | the other two circuits (numbers of gates and inputs only, C75) |
| `scripts/communication_estimates.py` | `EstModel` (semi-honest estimate), `EstFullModel` (malicious estimate) | floating-point rounding (harmless below 2^53, C78), printing |
| `scripts/computation_estimates.py` | `EstFullModel`; the library's operations it estimates in `CostModel` | floating-point rounding, times per operation, printing; in `CostModel` the zero accumulators of `ndarray`, the computation of Lagrange coefficients and LPN matrices |
| `scripts/gen_lpn_params.py` | `LpnScriptModel`, `LpnParamModel` (`sec_lpn`) | floating-point rounding, printing |
| `scripts/lpn_param.py`: `com`, `Guass`, `sub_SD_ISDq`, `min_SD_ISDq`, `SD_ISD_q`, `Ourparitycheckforq`, `analysisforq` | `LpnParamModel` | decimal and floating-point rounding (exact reals); the other estimates of the file (binary fields, regular noise, its command line), which nothing in the repository calls |
| `scripts/gen_binary_supmat.py` | `SupmatScriptModel` | the `galois` package (a field with vectors of bits and the generator of the BCH code are arguments), printing |
| `lib.rs` | `StatsModel` (traffic of `Stats`) | wall-clock time, printing, JSON |

u32/usize overflow is modelled only where a property is about it.  Debug assertions are not
modelled, except that positions with repetitions are excluded by hypotheses.

## Layers

1. `Galois*`, `GF2Poly`, `GFField`: bit-level model of the C log tables and of `GF<W>`; the field
   GF(2^W) on binary numbers, for all W in 1..30 at once, as a mathcomp `fieldType`.
2. Algebra (`Math*`, `Mat*`, `Sharing*`, `Privacy*`, `RingIds`): written once for an arbitrary
   mathcomp `fieldType`, as functions on sequences with the same index arithmetic as the code;
   instantiated at GF(2^W).  `emb : nat -> F` stands for `GF::from`.
3. `Circuit*`, `ProtoId*`, `Codec*`, `Frame*`, `Router*`, `Route*`, `Lpn*`: plain list programs and
   transition systems.
4. `Machine*`, `Realize`: an asynchronous semantics.  A party is a tree of send / receive / gather /
   fork-join steps; a global state holds all parties, in-flight messages and per-id mailboxes; the
   scheduler may pick any task and deliver any in-flight message at any time.
   `every_run_ends n c Q`: every schedule from `c` is finite and can only stop in states
   satisfying `Q`.  `realizes n rds P x`: the code `P` is the list of communication rounds `rds`
   followed by its continuation at the values `x`; rounds of one phase need different ids, and an
   id may come back two or more phases later (`P_Phase`).
5. Protocols (`Core*`, `RandTrans*`, `Preproc*`, `Dummy*`, `Garble*`) are programs of that language
   in continuation-passing style using the functions of layer 2; theorems quantify over all
   schedules and coins.
6. `View*`, `Sent*`, `Leak*`, `Hide*`, `Twin*`: relations between two executions (what a coalition sees), and which
   messages are sent in the executions of a code made of rounds.  `Dice*`, `Triangle`: all random
   elements of a run as a finite family, for statements about distributions (`Exact*`, `PipeDice*`,
   `PipeLift`: of preprocessing and garbling together).
7. `Stack*`: tasks, channels, routers and network together.  `Bill*`, `Traffic*`, `Est*`: what is
   sent, counted.

`*Model.v` files contain definitions only, `*Spec.v` the words used by theorem statements,
`P_*.v` the property theorems, their non-vacuity examples and `Print Assumptions`.

## Findings

Statements that are false of the code are proved false (theorems ending in `_refuted`, with the
witness in the proof); what does hold is proved beside them.

* `GF` (C04-C06): `GF::from(v)` with v >= 2^W reads outside the table; the initialisation cells are
  shared by all widths, so a second width is never initialised and a failed `init` is reported as
  `Ok` later; deserialisation accepts values >= 2^W.  Width 30 needs signed overflow in C.
* `from_bristol_fashion` (C17) returns the outputs in reverse order when there are two or more.  It
  accepts (C76) gate lines with too many inputs, which it drops (`3 1 0 1 2 3 XOR` is the XOR of wires
  0 and 1), superfluous tokens, and wires that do not exist (`eval` then panics).
* `ProtocolIDBuilder::new(_, num)` (C21) yields 256^bytes - 1 ids, too few exactly if num is a
  power of 256; `garble` panics for every nonempty circuit that packs into at most `l` blocks (it asks
  a builder for one id) and for circuits with 252 gate blocks.
* `receive_router` (C23, C65): a second concurrent `recv` on an id makes the first one panic.
  Frames (C26, C51): a length prefix of 0, an id length beyond the frame, a cut stream and an id
  longer than 255 bytes panic.
* `PreProcSer` (C39): the keys come back with shape (blocks, 2, K); no masks: division by zero.
* `garble` (C41): lines 179-183 reinterpret the keys (2, K, blocks) as (blocks, 2, K) instead of
  transposing, so gates' input labels are not the output labels of their wires' gates.
  (C43) INV tables are those of a buffer.  (C44) the last symbol of every plaintext is the
  unmasked value of the wire.
* LPN nonces (C46): two inverters in sequence share a nonce; an AND of a wire with itself uses the
  sum of two equal labels as the key of two rows.
* `dummy` cycles through a pool of 100000 sharings.
* `binary_super_inv_matrix` (C52): a ragged file whose number of entries is a multiple of the number
  of lines is accepted and misread.
* Two `sync`s on one id with nothing sent in between can hang (C53): a fast party's second message
  reaches a slow one during its first `gather` and is dropped as a duplicate.  `bin/garble.rs` does
  this with `reps >= 2` and a circuit without gates.
* `bin/garble.rs` and `bin/preproc.rs` record `threads: opts.reps`; party 0's own final `done`
  message is never received.
* `bin/preproc_size.rs` (C57) prints the size of the dummy material; `preproc` generates up to two
  batches of sharings more.
* `net_bytes` (C58) leaves out the 2 to 10 bytes of length fields per message, and counts messages a
  party sends to itself, which never reach a socket.
* With `--save` (C59) the parties other than 0 hang: party 0 sends `done` and returns without any
  `.await`; on the current-thread runtime no other task runs after `block_on`'s future is ready, so
  the message stays in the queue of `send_router`.
* Masks of transformations (C61): in `randtrans` the rows of `secrets` beyond the positions of a
  transformation are shares of both masks, so with o old and p < l new positions party m's share of
  `random` is party (m + p - o)'s share of `random_n`, for m < l - p.  In `garble`, o < p if a gate
  block that is not full repeats an input wire.  The leader of that `trans` and party m then know
  party (m + p - o)'s share of its input.  If all gates of the block have the same wire, this is a
  (t+1)-st share of the sharing with the masks and labels of the wire's block: t parties (for
  t = 1, party 0 alone) know a linear relation of l masks.
* Shipped binary matrices (C64): `n16_t5.txt`, the file of the README's own example, has two columns
  that differ at five parties only, so these five know the XOR of the corresponding random bits in
  every run of `randbit` (exactly eight sets of five parties learn such sums); in the same way 80
  (of 89), 62 (of 65), 52 (of 53), 43 (of 43) and 122 (of 131) parties know sums of bits made with
  `n256_t89.txt`, `n256_t65.txt`, `n256_t53.txt`, `n256_t43.txt` and `n512_t131.txt`: of the seven
  files only `n128_t31.txt` does what its name says.  The cause is `gen_mat_bch` in
  `scripts/gen_binary_supmat.py`: it appends a column of ones to the generator of the BCH code where
  a parity bit is needed, so the distance is not the d + 1 that the script reports.  All seven files are
  outputs of the generator (C73), so with the true distances of the inner codes, 5 and 3, they hide
  from 79 (exactly), 54, 44, 32 and 109 parties.  The README
  (lines 73-76) asks that the number of corruptions the script prints be *at most* t; it must be at
  least t.
* `scripts/communication_estimates.py` (C68) has no INV gates (each block of them costs n (10 K + 6)
  field elements and more), counts no message headers, and divides the number of transformations by
  `l` once where `garble` rounds up for each of the 2 K + 1 columns.
* The README (lines 142-144) advises to count INV gates as XOR gates.  The estimate is then too low when
  both kinds leave a block partly filled (C77: XOR and INV gates never share a block); adding l XOR
  gates is always enough, and the numbers of the example in the README are safe.
* `scripts/computation_estimates.py` (C79) estimates a negative number of additions for a circuit
  without wires (`m - 1` additions for `m` terms).
* `scripts/gen_lpn_params.py`: `find_k_correct` returns k = 1 untested.  With some security estimates
  the script would print parameters whose decryption error is over the bound
  (C72_any_estimate_refuted); it does not with its own, because that gives a secret of one symbol less
  than one bit of security (C72_parameters_keep_bounds).
* `scripts/computation_estimates.py` (C81): `randshare` counts the products with the secrets and one
  interpolation, but `randtrans` in `core.rs` multiplies by full matrices with n rows and t + l and n
  columns, so n(n-l) + t(t+l) multiplications for each column are missing (C81_randtrans,
  C81_randtrans_refuted); the sharings of zero are added to the result without being counted.  The
  additions of the messages of AND gates are 5K + 6 too few for each block, those of XOR gates K - 2
  too many (C81_blocks).
* `scripts/lpn_param.py` (C80): `com(n, m)` is 1 for m > n, so an attack that cannot succeed has a finite
  cost (C80_pooled_gauss_refuted).  `sub_SD_ISDq` divides by `np.log2(1)` when exactly one position
  is left; `sec_lpn` turns the exception into the estimate 0.  For every odd number of queries that
  exceeds k by 3 to 39 the estimate is therefore 0 (C80_odd_refuted), though it is at least 1 for the
  even number before (C80_monotone_refuted).
* The weight in `scripts/gen_lpn_params.py` is that of a code of
  dimension k; the rows of a table carry K labels and a bit, so k must be K + 1.  With the printed k
  as `--lpn-key-len` the assumed radius is one too large whenever M - K is even (C71).
* `scripts/gen_binary_supmat.py` (C73): the search accepts outer codes of length 2^k that the
  generator then rejects by an assertion (`128 4` aborts), and it may choose a code for many more
  parties than asked for (`256 6` makes a file for 1024).  It prunes without losing solutions.  Its
  files hide from d_rs (d_bch - 1) - 1 parties, and with a parity bit in place of the ones from the
  d_rs d_bch - 1 that it prints.
* Shipped circuits (C74, C75): as the tables of INV gates are those of buffers (C43), the tables made
  of `sub64.txt` compute x + y instead of x - y.  Garbling it aborts (and no party ever returns)
  exactly for packing parameters l >= 25; the circuit of AES for l = 146 and l >= 193, that of
  SHA-256 for l >= 371: one of the numbers of ids is then 1, 256 or 65536.
* The communication printed for a repetition by `garble` and `preproc` depends on the schedule (C82).  The
  counters are read after `sync`, but a faster party may have sent messages of the protocol by then,
  which have arrived and are not in the figure (C82_garble_figure, C82_preproc_figure); and a message of
  the next `sync` that has arrived before the second reading is in it (C82_overcount).  Nothing else is
  missing or added, also in the byte counters of the whole network stack (C82_garble_counters,
  C82_preproc_counters); between the readings of one repetition the counters may not grow at all, or by
  twice its traffic (C82_counters_differ).
* Parameters: `mult` needs n >= 2t + 2l - 1, garbling n >= t + 2l; `gates_per_block = 0` and
  `rs_gen_mat(0, _)` panic.

## Plan per property

| id | what is modelled | how it is proved |
|----|------------------|------------------|
| C01 | log/ilog tables, multiply, divide, xor | powers of x enumerate all nonzero values (order of x computed by square-and-multiply against the factorisation of 2^W-1); multiplication identified with carry-less product modulo the polynomial |
| C02 | table-building loop with explicit exit(1)/out-of-bounds results | loop invariant: entry j of the table holds x^j |
| C03 | table accesses return an option | bounds from C02 invariant |
| C04 | `From<u32>` | proved below 2^W, refuted above |
| C05 | process-global Once cells as state | proved for one width, refuted for two; induction over all histories gives exactly which calls work (`P_History`) |
| C06 | byte encoding, bincode vectors | induction on vectors; refutation for the range check; decoding stays in the field iff 8 divides W (`P_History`) |
| C07 | `lagrange_coeffs` as list program | polynomial identity via max number of roots |
| C08, C09 | `rs_gen_mat`, `super_inv_matrix` | Vandermonde / root counting |
| C10 | `Combination` with last-wins lookup | list induction |
| C11-C15 | `PackedSharing` with coins as arguments | uniqueness of interpolation |
| C16 | position builders on GF(2^W) | arithmetic |
| C17 | token-level parser and printer | induction over gates; refutation for outputs |
| C18, C19 | `eval`, `pack` with stable sort and chunks | invariants, permutation lemmas |
| C20, C21 | `ProtocolIDBuilder` | little-endian counter refinement; refutations |
| C22, C23, C28 | `receive_router` as a transition function over arrival/request events | simulation by per-id FIFO queues |
| C24, C25 | receive loop; n-party barrier LTS | induction over arrivals, invariant |
| C26, C51 | vint64 + frame encoder/decoder on byte lists | induction over frames |
| C27 | local router / send router LTS | invariant over interleavings |
| C29-C32, C34, C36, C48 | programs in the asynchronous language | conformance proofs (rely/guarantee per message id with ranks for progress) + algebra of layer 2 |
| C33 | `leader_from_proto_id` with arbitrary hash | modular arithmetic |
| C35 | rand batch | super-invertibility |
| C37 | counting functions of describe and garble | arithmetic over block lists |
| C38 | `dummy` with coin stream | interpolation |
| C39 | PreProcSer conversions on shaped arrays | refutation + partial round trip |
| C40-C45 | garble, select, transforms, gate garbling | algebra at the level of shared secrets; refutations by concrete instances |
| C46, C47 | nonce/lookup computation, hash abstract | counting argument on occurrences; exact characterisation of the blocks that share a matrix |
| C49 | leader view | bijection between coins and views |
| C50 | accept/connect LTS | invariant |
| C52 | token-level loader | list induction |
| C53 | the repetition loop over any protocol | rounds labelled by phases: an id is reused only two phases later; an invariant of lost states for the refutation |
| C54 | parsing, packing, contexts, repetitions | composition of C17-C21, C48 and C53; lengths of ids separate them from the benchmark id |
| C55 | loading both files, describing, repetitions | composition of C17, C36, C52 and C53 |
| C56 | preproc then garble in one process | composition of C36 and C48: the rounds of the two protocols are concatenated, ids separated by their roots |
| C57 | the size program | lengths of the encodings (C39) and counting (C37, C38) |
| C58 | `Stats::now`, `Stats::elapsed` against the router's counters | induction over parties, C28; length of frames |
| C59 | the save step; a second semantics with per-process queues that are served only while the process runs | party 0 with and without a last receive (a lifting of relations through code); simulation of the exit semantics by the reliable one, invariant on the pending message |
| C60 | two systems in which a coalition runs arbitrary code | honest codes with the same traffic for every received message (a relation on codes), a shift of the masks by interpolation through the secrets and the coalition's zeros |
| C61 | the messages of whole garbling runs | the rounds of the code determine what is sent in its executions (`SentProofs`); the masks, output shares and sent sums as functions of the messages; a polynomial with too many zeros |
| C62 | two worlds: the same code on other masks, labels and errors | a twin of each round of garble, message by message: random and zero sharings are shifted by polynomials that vanish at the coalition, one protocol step at a time (`TwinCore`, `TwinRand`, `TwinTf`, `TwinWires`, `TwinGates`), and the queues of the other world are glued together (`TwinRun`) |
| C63 | two worlds: preprocessing and garbling on other coins | a right inverse of the matrix without the coalition's columns turns any change of the results into a change of what the others deal (`HideProofs`, `TwinDeal`); error tasks (`TwinErr`); the results of preproc are assembled block by block (`TwinPre`); composed with C62 |
| C64 | matrix files as lists of bits; runs of `randbit` | sums of rows as parities; enumeration of all codewords for the positive results, a codeword as witness for the others |
| C65 | the stack of all tasks simulates the machine with mailboxes | a relation between stack and machine states (`StackProofs`): requests, pools and oneshot channels of a party account for what its tasks await, and messages on their way plus pool plus channels are the machine's network and mailbox; every stack step is a machine step or decreases a measure; a stack that is stuck belongs to a machine that is stuck (`StackRun`). `listens` stays free of duplicates because a run follows a plan in rounds (`StackRounds`). `stack_ends_left` allows messages that stay in mailboxes, which is what the report of `--save` leaves (`P_SaveStack`) |
| C66 | all random field elements of a run as one finite family (`DiceSpec`) | the shifts of C62 are written as explicit functions of the dice (`garble_exact` in `TwinRun`); each shift depends on dice used earlier only, so the map that applies them is triangular and has an inverse (`Triangle`, `DiceProofs`) |
| C67 | what code sends does not depend on what it receives | `bill` (in `Bill`) says by recursion on code that every path that does not panic sends messages of a given total price; the bills of the protocols are computed from their code (`BillProto`) with any price per recipient and length. On the stack, what a party has sent plus the bill of its remaining task is invariant, and at the end everything sent has been received (`stack_done`). Prices that count one recipient only and any function of the length turn the bill into the formulas of `TrafficSpec`. |
| C68 | closed forms of the script and of the formulas of C67 | monotonicity of rounding up; what `pack` does to the numbers of gates (C19) |
| C69 | all dice of preprocessing and garbling as one finite family (`PipeDiceSpec`) | the shifts of C63 as explicit functions of the dice, including those inside the error tasks (`ExactErr`, `ExactPre`); a bijection of all dice that moves bits, keys and scalars by any given amounts and keeps the coalition's view (`PipeDice`, `PipeLift`); counting secrets by these bijections |
| C70 | errors as functions of the secrets of C69 | counting the ways to write an element as a product of two bits and an element |
| C71 | errors of a row as a set of coordinates | functions of a given weight are counted (`WeightProofs`); C45 for rows with few errors; a polynomial with K zeros for the converse |
| C72 | `LpnScriptModel`, `LpnParamModel` | invariants of the binary searches; a counterexample for other estimates; the estimate at k = 1 |
| C73 | `SupmatScriptModel` | invariant of the loops (all feasible parameters have at most the best dimension); additive functions of bits are parities; roots of polynomials for the outer code; power sums for the inner one (`BchBound`); the shipped files by computation over GF(2^7) and GF(2^11) with bases |
| C74 | the text of `sub64.txt` (`Sub64File`) | the text is read by computation; full subtractors found in the list of gates, then induction along the chain of borrows (`Shipped`) |
| C75 | code that never returns (`Never`) | `never` is an invariant of steps of one party, whatever arrives; C21 gives the ids, C48 and C65 the executions that end; the counts by computation up to the parameter from which one batch is enough |
| C76 | the parser of CircuitModel, with `trim` | inversion of every parsing step; equivalence with the grammar of `ParseSpec` |
| C77 | `EstModel` and the closed forms of C68 | rounding up of sums |
| C79 | `EstFullModel` | closed forms of the counts and lines, monotonicity, exact costs of the material and the verification |
| C80 | `LpnParamModel` | the product in `com` is a falling factorial; counting of subsets; the loops keep the least value, and the turning point of costs that fall and then rise |
| C81 | `CostModel` | the counted functions compute what the models compute; every count is a closed form in the sizes (`Cost`) |
| C82 | `MachineModel`, `PipeModel` (`bench_loop`) | the invariant of the phases extended by what each step takes from a mailbox (`MachineProofs`, `inv_takes`): arrived = still in the mailbox + taken, and what is taken up to a reading is fixed by the plan (`FigureProofs`); an explicit schedule with an early message; on the stack (`StackModel`, `RouterModel`): the simulation of `StackRun` keeps the list of what a party hears equal to its `party_out` channel, and the mailbox is the router's pool plus what the router has not read (`FigureStack`); concrete executions by commands (`StackExec`) |
| C78 | division rounded to binary64 (Flocq's `round`) | relative error of rounding to nearest |
