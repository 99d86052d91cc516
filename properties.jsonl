{"id": "C01", "title": "GF<W> implements the field GF(2^W)", "statement": "After a successful GF::<W>::init(), +, -, * and / on in-range elements (values < 2^W) return in-range elements, `*` is multiplication of binary polynomials modulo the library's degree-W polynomial for W, (a/b)*b = a for b != 0, and all field axioms hold with ZERO and ONE; subtraction equals addition.", "quantifier": "every width W in 1..=29 (the documented range), every pair/triple of in-range elements", "why_tests_cant": "2^90 triples; irreducibility/primitivity of 30 different polynomials is a number-theoretic fact, not something a sample of products can show", "anchors": ["src/math/galois/mod.rs: Mul/Div/Add/Sub impls, ZERO, ONE", "extern/galois/galois.c: prim_poly, galois_logtable_multiply, galois_logtable_divide"]}
{"id": "C02", "title": "Field initialisation always succeeds and never corrupts memory", "statement": "For every supported width the first init() builds both lookup tables completely, returns Ok, never takes the exit(1) branch, and never writes outside the allocated tables; for W > 30 it returns Err.", "quantifier": "every width W in 1..=29 and in 31..=255, every step of the table-building loop", "why_tests_cant": "the tables have up to 2^30 entries built by iterating an LFSR; absence of an early repeat is the primitivity of the polynomial for every width", "anchors": ["src/math/galois/mod.rs: GF::init", "extern/galois/galois.c: galois_create_log_tables"]}
{"id": "C03", "title": "In-range field arithmetic never reads outside the tables", "statement": "Every table access made by * and / on in-range operands after init stays inside the allocated tables, for every operand pair, including zero operands and the extreme logarithms.", "quantifier": "every width W in 1..=29 (the documented range), every pair of in-range operands", "why_tests_cant": "memory safety of unsafe FFI indexing for all 2^(2W) operand pairs", "anchors": ["src/math/galois/mod.rs: MulAssign, DivAssign", "extern/galois/galois.c: galois_logtable_multiply, galois_logtable_divide"]}
{"id": "C04", "title": "GF::from reduces any u32 into the field", "statement": "GF::from(v) returns an in-range element for every u32 v without reading outside the tables. (Holds for v < 2^W; expected to fail for v >= 2^W because the value itself is used as a log-table index.)", "quantifier": "every width, every u32 value", "why_tests_cant": "depends on values larger than the field order, which no test uses; the failure is an out-of-bounds read that may go unnoticed at run time", "anchors": ["src/math/galois/mod.rs: From<u32> for GF<W>", "src/sharing.rs: PackedSharing::wire_to_pos"]}
{"id": "C05", "title": "Several widths can be initialised in one process", "statement": "If init() returns Ok for a width then arithmetic and sampling for that width are valid afterwards, in every sequence of init() calls over any widths (expected to fail: the Once/OnceLock statics are shared by all widths).", "quantifier": "every finite sequence of init::<W> / rand::<W> calls over arbitrary widths", "why_tests_cant": "history-dependent; each test binary uses a single width", "anchors": ["src/math/galois/mod.rs: GF::init, GF::get_dist, GF::rand"]}
{"id": "C06", "title": "Serialized field elements and vectors round-trip", "statement": "Serializing an in-range element yields exactly ceil(W/8) bytes and deserializing them gives the element back with nothing left over; the same for Vec<GF<W>> of any length with its length prefix; truncated input is an error, never a wrong value. Deserialization rejects encodings of values >= 2^W (this last part is expected to fail when 8 does not divide W).", "quantifier": "every width, every in-range element, every vector, every truncation point, every byte string", "why_tests_cant": "round trip for all values and all truncation points", "anchors": ["src/math/galois/mod.rs: Serialize/Deserialize for GF<W>, NUM_BYTES", "src/protocol/core.rs: bincode serialize/deserialize of Vec<GF<W>>"]}
{"id": "C07", "title": "Lagrange coefficients interpolate", "statement": "For distinct cpos, lagrange_coeffs(cpos, npos) maps the evaluations at cpos of any polynomial of degree < |cpos| to its evaluations at npos; it has |npos| rows and |cpos| columns; overlaps between npos and cpos are allowed; it never divides by zero.", "quantifier": "every field width, every list of distinct nodes, every target list, every polynomial", "why_tests_cant": "ranges over all polynomials and all node sets", "anchors": ["src/math/mod.rs: lagrange_coeffs"]}
{"id": "C08", "title": "super_inv_matrix is super-invertible", "statement": "super_inv_matrix(num_inp, num_out) has num_out rows and num_inp columns, and every choice of num_out distinct columns forms an invertible matrix; consequently if any num_out of the inputs are uniform and independent of the rest then so are the outputs (the map restricted to those inputs is a bijection).", "quantifier": "every width and every num_out <= num_inp < 2^W, every column subset, every assignment of the remaining inputs", "why_tests_cant": "exponentially many column subsets; a statement about bijectivity over field vectors", "anchors": ["src/math/mod.rs: super_inv_matrix, rs_gen_mat"]}
{"id": "C09", "title": "rs_gen_mat generates an MDS (Reed-Solomon type) code", "statement": "rs_gen_mat(k, m) has m rows and k columns, entry (x,i) is (x+1)^(i+1), and any two different messages give codewords differing in at least m-k+1 positions, so up to m-k erasures never make two messages ambiguous.", "quantifier": "every k >= 1, every m < 2^W, every pair of messages", "why_tests_cant": "minimum distance ranges over all pairs of messages", "anchors": ["src/math/mod.rs: rs_gen_mat", "src/protocol/garble.rs: GarbleContext::new lpn_enc"]}
{"id": "C10", "title": "Inferred selections reproduce their instance", "statement": "Combination::from_instance(inp, out).apply(inp) = out whenever every element of out occurs in inp, also when inp has repetitions; applying the same combination to any other vector v of the length of inp permutes/duplicates positions consistently: result[j] = v[i] for a fixed index i with inp[i] = out[j]; it panics exactly when some element of out is missing.", "quantifier": "every inp, out, v", "why_tests_cant": "universal over lists with duplicates; internal HashMap overwrites", "anchors": ["src/math/mod.rs: Combination::new/from_instance/apply"]}
{"id": "C11", "title": "Sharing then reconstructing returns the secrets", "statement": "For every degree d with |pos|-1 <= d <= n-1, every list of distinct secret positions disjoint from the share positions, every secret vector and every outcome of the random generator: new(d,n,pos).share returns n shares that lie on a polynomial of degree <= d taking the secrets at pos; semihon_recon and recon applied to them return the secrets.", "quantifier": "every n, d, pos, secret vector, coin outcome, field width", "why_tests_cant": "quantifies over all randomness and parameters", "anchors": ["src/sharing.rs: PackedSharing::new/share/semihon_recon/recon, share_using_coeffs, recon_using_coeffs"]}
{"id": "C12", "title": "recon accepts exactly the valid sharings", "statement": "recon(shares) returns Ok iff the n shares lie on a polynomial of degree <= d (and then returns that polynomial's values at the secret positions); any corruption of between 1 and n-d-1 shares of a valid sharing is reported as MaliciousBehavior; a share vector of the wrong length is an error.", "quantifier": "every share vector (valid or adversarial), every corruption pattern", "why_tests_cant": "adversarial inputs; all corruption patterns", "anchors": ["src/sharing.rs: PackedSharing::recon"]}
{"id": "C13", "title": "Packed sharings are linear and multiplicative", "statement": "Adding share vectors adds the secrets, scaling scales them; the pointwise product of a degree d1 and a degree d2 sharing at the same positions with d1+d2 <= n-1 is a sharing of the pointwise product that pss_n.semihon_recon reconstructs.", "quantifier": "every pair of sharings and scalars", "why_tests_cant": "all polynomials", "anchors": ["src/sharing.rs: semihon_recon", "src/protocol/core.rs: mult"]}
{"id": "C14", "title": "Any d+1-l shares reveal nothing", "statement": "For any set of at most d+1-l share positions, any share values there and any secret vector, exactly one random-coin vector (the same number, for smaller sets, of coin vectors) explains the view: the view's distribution is independent of the secrets.", "quantifier": "every set of parties of size <= d+1-l, every view, every pair of secret vectors", "why_tests_cant": "a probability statement over all coins; cannot be sampled exactly", "anchors": ["src/sharing.rs: PackedSharing::share, share_using_coeffs"]}
{"id": "C15", "title": "PackedSharing::rand outputs uniform degree-d sharings", "statement": "rand() always returns n points of one polynomial of degree <= d, and the map from the d+1 coins to such polynomials is a bijection (so uniform coins give a uniform polynomial and the packed secrets are uniform).", "quantifier": "every coin vector, every degree-<=d polynomial", "why_tests_cant": "bijectivity over the whole coin space", "anchors": ["src/sharing.rs: PackedSharing::rand"]}
{"id": "C16", "title": "Secret, share and wire positions never collide", "statement": "Share positions 0..n, default positions n..n+l and wire positions n+l+w are pairwise distinct field elements whenever n+l+num_wires <= 2^W, for all wires of the circuit; beyond that bound wire_to_pos leaves the field (out-of-range access).", "quantifier": "every n, l, wire list, width", "why_tests_cant": "universal over wires and boundary conditions", "anchors": ["src/sharing.rs: default_pos, share_pos, wire_to_pos"]}
{"id": "C17", "title": "Bristol-fashion circuits are parsed faithfully", "statement": "Parsing the textual rendering of any circuit (header, AND/XOR/INV gates, arbitrary whitespace-separated layout in 4 header lines) gives back its gates, wire count, inputs and outputs in file order. (The output part is expected to fail for two or more outputs: groups come back in reverse order.)", "quantifier": "every circuit", "why_tests_cant": "universal over circuits; tests use one-output circuits", "anchors": ["src/circuit.rs: Circuit::from_bristol_fashion"]}
{"id": "C18", "title": "Circuit::eval computes the circuit", "statement": "On every circuit whose gates are in topological order with each wire written at most once and in range, eval never panics and returns, for every input, the unique outputs satisfying all gate equations. On an arbitrary circuit it panics exactly if a wire it touches does not exist, and otherwise returns what executing the gates one after the other yields.", "quantifier": "every circuit and input", "why_tests_cant": "universal over circuits and inputs", "anchors": ["src/circuit.rs: Circuit::eval"]}
{"id": "C19", "title": "Packing preserves the circuit", "statement": "pack(l) with l >= 1 yields blocks of 1..=l gates of one kind, all full except possibly the last of each kind; the multiset of gates is preserved exactly, within-gate pairing of inputs and outputs is preserved, inputs and outputs keep order, and any wire assignment satisfies the packed circuit iff it satisfies the original.", "quantifier": "every circuit, every l >= 1, every wire assignment", "why_tests_cant": "universal; relies on sorting being a permutation and on chunking", "anchors": ["src/circuit.rs: Circuit::pack, pack_gate_info, PackedGateInfo::from, get_gate_counts"]}
{"id": "C20", "title": "Child protocol IDs are unique and prefix-separated", "statement": "All ids returned by one ProtocolIDBuilder before its first None are pairwise distinct, extend the parent id, have equal length, and ids built below two different children are never equal, at any nesting depth; every id used by one garble or preproc invocation is distinct from all the others.", "quantifier": "every parent id, bound, number of calls and nesting depth; every circuit", "why_tests_cant": "unbounded trees of ids", "anchors": ["src/protocol/mod.rs: ProtocolIDBuilder::new/next", "src/protocol/garble.rs: garble, gen_rand_shares, transform, garble_and", "src/protocol/preproc.rs: preproc"]}
{"id": "C21", "title": "A builder created for num children supplies num children", "statement": "ProtocolIDBuilder::new(id, num) yields at least num ids (expected to fail for num in {0,1,256,65536,...}: it yields exactly 256^bytes - 1 ids, none at all for num <= 1). Consequently garble, gen_rand_shares and transform can always name their subprotocols (expected to fail for circuits with exactly 252 gate blocks or a single transform).", "quantifier": "every num in u64; every packed circuit", "why_tests_cant": "only special sizes fail; tests never hit them", "anchors": ["src/protocol/mod.rs: ProtocolIDBuilder::new, increment_bytes, next", "src/protocol/garble.rs: garble id_gen, gen_rand_shares id_gen, transform id_gen"]}
{"id": "C22", "title": "Received messages are delivered exactly once, in order, to the right context", "statement": "For every interleaving of message arrivals and recv(id) requests in which no two requests on one id are outstanding together: the k-th recv on id obtains the k-th message that arrived for id, no message is lost, duplicated or delivered under another id, and a pending request is answered as soon as a message for it arrives.", "quantifier": "every finite interleaving of arrivals and requests, every set of ids", "why_tests_cant": "schedules of concurrent tasks", "anchors": ["src/protocol/network.rs: receive_router", "src/protocol/mod.rs: ProtoHandle::recv"]}
{"id": "C23", "title": "Concurrent receivers on one id are both served", "statement": "If two tasks call recv on the same id concurrently both eventually get a message when two messages arrive (expected to fail: the later request evicts the earlier one, whose oneshot sender is dropped so its recv panics).", "quantifier": "every interleaving", "why_tests_cant": "timing dependent", "anchors": ["src/protocol/network.rs: receive_router handle_pool.insert", "src/protocol/mod.rs: ProtoHandle::recv"]}
{"id": "C24", "title": "message_from_each_party returns the first message of each party in party order", "statement": "For every arrival order on the id, with any number of repeated messages from any party, the call returns exactly when each of the n parties has been heard, and entry i is the first message that arrived from party i; messages consumed are exactly the arrivals up to that point.", "quantifier": "every arrival sequence", "why_tests_cant": "all arrival orders and duplications", "anchors": ["src/protocol/network.rs: message_from_each_party"]}
{"id": "C25", "title": "sync is a barrier", "statement": "No party returns from sync(id) before every party has called sync(id), for every schedule and delivery order; if all parties call it then all return.", "quantifier": "every schedule of n parties", "why_tests_cant": "schedules", "anchors": ["src/protocol/network.rs: sync, message_from_each_party"]}
{"id": "C26", "title": "TCP framing is lossless", "statement": "Whatever sequence of messages (ids up to 255 bytes, any data) is written by the sender and however the byte stream is split into reads, the receiver produces exactly the same sequence of (id, data); a stream cut at any point yields a prefix of the sequence.", "quantifier": "every message sequence, every cut point", "why_tests_cant": "unbounded streams and all cut points", "anchors": ["src/protocol/network.rs: party_sender, party_receiver"]}
{"id": "C27", "title": "Every message reaches exactly its recipients", "statement": "On both the local network and the TCP network, a message to One(p) is delivered once to p only (self included), a message to All once to each of the n parties, tagged with the true sender, and messages from one sender to one recipient arrive in sending order, for every schedule of router tasks.", "quantifier": "every sequence of sends by every party, every interleaving of the router tasks", "why_tests_cant": "schedules", "anchors": ["src/protocol/network.rs: setup_local_network, send_router, setup_tcp_network"]}
{"id": "C28", "title": "Traffic statistics equal what was received", "statement": "After any history, Stats::party(p) is the exact sum over messages received from p of data length and of data length plus id length; total() is the sum over parties; statistics never decrease.", "quantifier": "every arrival history", "why_tests_cant": "history dependent", "anchors": ["src/protocol/network.rs: Stats, receive_router"]}
{"id": "C29", "title": "reduce_degree is correct under every schedule", "statement": "If vx are degree-(n-1) sharings of x, random degree-(t+l-1) sharings, zero degree-(n-1) sharings of 0, then for every schedule, delivery order, leader and coins, every party's call terminates and the returned shares form degree-(t+l-1) sharings of x.", "quantifier": "every n,t,l within range, every schedule, every input sharing, every leader choice and coin outcome", "why_tests_cant": "asynchronous interleavings and all coins", "anchors": ["src/protocol/core.rs: reduce_degree, leader_from_proto_id"]}
{"id": "C30", "title": "mult is correct under every schedule", "statement": "With inputs sharings of degree d1, d2 with d1+d2 <= n-1 (in particular t+l-1 each with n >= 2(t+l)-1), the parties' outputs are degree-(t+l-1) sharings of the slotwise products, for every schedule.", "quantifier": "as for reduce_degree", "why_tests_cant": "asynchronous interleavings and all coins", "anchors": ["src/protocol/core.rs: mult"]}
{"id": "C31", "title": "trans moves secrets to new positions under every schedule", "statement": "With correlated masks (random: degree-(t+l-1) sharing of f(r) at the new positions; random_n: degree-(n-1) sharing of r at the old positions), trans returns sharings of f(x) at the new positions for every schedule.", "quantifier": "every schedule, positions, selection, coins", "why_tests_cant": "asynchronous interleavings and all coins", "anchors": ["src/protocol/core.rs: trans, SharingTransform"]}
{"id": "C32", "title": "randtrans produces correctly correlated masks under every schedule", "statement": "Given sharings of random values and zeros, row k of the two outputs are a degree-(t+l-1) sharing of f_k(r_k) at new_pos[k] and a degree-(n-1) sharing of r_k at old_pos[k], with the same r_k, for every schedule and each k.", "quantifier": "every schedule, every list of at most l transforms with |old|,|new| <= l, n >= t+2l", "why_tests_cant": "asynchronous interleavings, all coins, index arithmetic for all sizes", "anchors": ["src/protocol/core.rs: RandSharingTransform::new, randtrans"]}
{"id": "C33", "title": "Leader selection agrees across parties", "statement": "All parties compute the same leader for an id, and it is a valid party (< n) for every id and every n in 1..=65536, so the conversion to PartyID never panics.", "quantifier": "every id and n", "why_tests_cant": "all ids", "anchors": ["src/protocol/core.rs: leader_from_proto_id"]}
{"id": "C34", "title": "rand / zero / randbit output valid sharings under every schedule", "statement": "For every schedule and coins, rand outputs degree-(t+l-1) sharings, zero outputs degree-(n-1) sharings of the all-zero vector, randbit (with a binary matrix) outputs degree-(t+l-1) sharings of bits; each returns ceil(num/batch)*batch >= num shares in the same order at every party.", "quantifier": "every schedule, num, coins", "why_tests_cant": "asynchronous interleavings and all coins", "anchors": ["src/protocol/preproc.rs: rand, zero, randbit"]}
{"id": "C35", "title": "One honest party suffices for randomness of rand outputs", "statement": "For fixed contributions of all other parties, the map from the polynomials contributed by any batch-size-many honest parties to the output sharings of a batch is a bijection onto tuples of degree-(t+l-1) polynomials, so outputs are uniform to the adversary.", "quantifier": "every set of num_out contributors, every contribution of the others", "why_tests_cant": "probability over all coins and adversarial contributions", "anchors": ["src/protocol/preproc.rs: rand", "src/math/mod.rs: super_inv_matrix"]}
{"id": "C36", "title": "preproc produces exactly the material described", "statement": "For every schedule, preproc(describe(circ)) terminates at every party without running out of any queue and returns exactly desc.masks bit sharings, keys of the described shape, at least desc.randoms random sharings, at least desc.zeros zero sharings and exactly desc.errors error sharings, each error being slotwise bit*bit*random.", "quantifier": "every circuit/description, every schedule and coins", "why_tests_cant": "resource accounting for all sizes; schedules", "anchors": ["src/protocol/preproc.rs: preproc, PreProcCount::new"]}
{"id": "C37", "title": "describe matches what garble consumes", "statement": "garble run with a PreProc of exactly the described sizes never drains past the end of any queue and finishes with empty random, zero and error queues.", "quantifier": "every packed circuit and parameters", "why_tests_cant": "all sizes, including partial last blocks and batches", "anchors": ["src/protocol/preproc.rs: PreProcCount::new", "src/protocol/garble.rs: garble, gen_rand_shares"]}
{"id": "C38", "title": "dummy preprocessing is consistent across parties", "statement": "For a common seed and counts, the values produced by dummy at the n parties form degree-(t+l-1) sharings (bits for masks, arbitrary for keys/randoms/errors) and degree-(n-1) sharings of zero for zeros, at every index.", "quantifier": "every seed (coin stream), counts and parameters", "why_tests_cant": "all coin streams and indices", "anchors": ["src/protocol/preproc.rs: PreProc::dummy"]}
{"id": "C39", "title": "Serialized preprocessing material round-trips", "statement": "Deserializing a serialized PreProc gives the same PreProc (expected to fail: the key array of shape (2,K,B) comes back with shape (B,2,K), and empty masks make the conversion panic); the other four fields do round-trip.", "quantifier": "every PreProc value", "why_tests_cant": "shape-dependent for all sizes", "anchors": ["src/protocol/preproc.rs: PreProcSer, From impls"]}
{"id": "C40", "title": "Gate-input shares carry the right wires", "statement": "After the output transform, selection and input transform, slot j of input i of every packed gate is the value shared for wire inp[i][j], including duplicate wires inside one block and partially filled blocks.", "quantifier": "every well-formed packed circuit", "why_tests_cant": "all circuits, duplicates, partial blocks", "anchors": ["src/protocol/garble.rs: GarbleContext::new, compute_wire_to_block_map, select, Transforms::transform, gen_rand_shares"]}
{"id": "C41", "title": "garble uses for a wire's downstream inputs the same key it encrypts upstream", "statement": "The key shares selected as input labels of wire w equal the key shares encrypted as output labels of the gate producing w (expected to fail when there is more than one block: keys are re-shaped, not transposed, before the output transform).", "quantifier": "every circuit with at least two blocks and every key tensor", "why_tests_cant": "the garble test only checks table shapes", "anchors": ["src/protocol/garble.rs: garble lines 179-184 and 234-237"]}
{"id": "C42", "title": "AND and XOR tables encrypt the right label in every row", "statement": "For bit masks, row (i,j) of an AND (XOR) table encrypts in every slot the output label number (i+la)(j+lb)+lc (resp. i+la+j+lb+lc) under the sum of the input labels i and j, for every schedule of the underlying protocol.", "quantifier": "every mask, label, slot, schedule, coins", "why_tests_cant": "all masks and schedules", "anchors": ["src/protocol/garble.rs: garble_and, garble_xor"]}
{"id": "C43", "title": "INV tables encrypt the inverted label", "statement": "Row i of an INV table encrypts output label number 1+i+la+lc (expected to fail: the code encrypts label i+la+lc, i.e. garbles a buffer).", "quantifier": "every mask and label", "why_tests_cant": "semantics of the table, not covered by shape tests", "anchors": ["src/protocol/garble.rs: garble_inv"]}
{"id": "C44", "title": "The masked bit sent along a label matches the label's number", "statement": "The last symbol of the plaintext of each row is the number of the label it accompanies (expected to fail: it is that number plus the output mask, i.e. the cleartext wire value).", "quantifier": "every mask and row", "why_tests_cant": "semantics, not shape", "anchors": ["src/protocol/garble.rs: garble_and/garble_xor/garble_inv push_column"]}
{"id": "C45", "title": "Garbled rows decrypt", "statement": "Given the parties' table shares of a row, reconstructing at the default positions and subtracting A*(k_i+k_j) gives Enc(message)+error for the public matrix A of the gate's nonce, and whenever the error is zero on some K+1 coordinates the message is uniquely determined.", "quantifier": "every row, key, message, error with enough zero coordinates", "why_tests_cant": "all keys/errors", "anchors": ["src/protocol/garble.rs: garble_and/xor/inv, LPNMatrix::new", "src/math/mod.rs: rs_gen_mat"]}
{"id": "C46", "title": "LPN matrices are never reused with the same effective key", "statement": "Two different gates whose input wires at some slot are the same (as an unordered pair for two-input gates; the same wire for two one-input gates) never get the same matrix unless SHA-256 collides. Neither do two gates that have the same wire at some slot of the same operand; gates share a matrix exactly if the wires of all their slots have been used equally often before. The stronger per-wire reading in the code comment (no wire key used twice with one matrix) is expected to fail.", "quantifier": "every packed circuit", "why_tests_cant": "all circuits", "anchors": ["src/protocol/garble.rs: LPNMatrix::compute_lookup, update_counts, hash_inp_wires, new, get"]}
{"id": "C47", "title": "The LPN lookup is total and dense", "statement": "Every gate has a matrix, all parties and all gates with equal nonces share the same one, matrix indices are exactly 0..number of nonces, and no nonce slot is left uninitialised.", "quantifier": "every packed circuit", "why_tests_cant": "all circuits", "anchors": ["src/protocol/garble.rs: LPNMatrix::compute_lookup, get"]}
{"id": "C48", "title": "garble terminates at every party with the specified table", "statement": "With described preprocessing, for every schedule and coins, garble (outside the id-exhaustion sizes of C21) terminates at every party without panic and the reconstructed tables are exactly the specified function of the shared masks, keys, errors and matrices.", "quantifier": "every well-formed packed circuit, schedule, coins", "why_tests_cant": "asynchronous interleavings of many concurrent subprotocols", "anchors": ["src/protocol/garble.rs: garble"]}
{"id": "C49", "title": "What the leader sees in reduce_degree is independent of the secrets", "statement": "For a uniformly random degree-(t+l-1) mask sharing and uniformly random zero sharing, the vector of n shares the leader reconstructs is uniformly distributed over all share vectors, whatever the input sharing.", "quantifier": "every input sharing, every view of the leader", "why_tests_cant": "probability over all coins", "anchors": ["src/protocol/core.rs: reduce_degree"]}
{"id": "C50", "title": "TCP connection setup pairs every two parties exactly once", "statement": "For every order in which connections are accepted, after connect_to_peers each party holds exactly one stream to each other party, stored under that party's id, and none to itself.", "quantifier": "every n, every acceptance order", "why_tests_cant": "connection races", "anchors": ["src/protocol/network.rs: connect_to_peers, setup_tcp_network"]}
{"id": "C51", "title": "Malformed network input cannot be silently misread", "statement": "Receiving bytes that are not a valid frame sequence either produces the maximal valid prefix and then stops or panics; it never yields a message that the bytes do not encode. (Zero-length frames and over-long id lengths panic the receiver task.)", "quantifier": "every byte stream", "why_tests_cant": "all byte strings", "anchors": ["src/protocol/network.rs: party_receiver"]}
{"id": "C52", "title": "binary super-invertible matrix loading is faithful", "statement": "Loading the text rendering of an r-by-c 0/1 matrix (rows on lines, entries separated by one space) returns its transpose with shape (c, r); every entry is ZERO or ONE; ragged input whose size is not r*c and non-binary tokens panic.", "quantifier": "every text file", "why_tests_cant": "all files", "anchors": ["src/math/mod.rs: binary_super_inv_matrix"]}
{"id": "C53", "title": "Reusing a channel id is safe exactly when another phase separates its uses", "statement": "A loop that, in each repetition, synchronises all parties on one fixed benchmark id and then runs a protocol that communicates on other ids ends in every run with the results of each repetition, although the same ids are reused in every repetition; if the protocol between two synchronisations sends nothing, there is a schedule in which a party consumes a message of the next synchronisation and hangs.", "quantifier": "every number of repetitions, parties, protocol of at least one round, and schedule", "why_tests_cant": "interleavings over unboundedly many repetitions", "anchors": ["src/bin/garble.rs: main loop", "src/bin/preproc.rs: main loop", "src/protocol/network.rs: sync"]}
{"id": "C54", "title": "The garble program produces the garbled tables of the circuit file", "statement": "From the text of a circuit file and numeric parameters to the end of the last repetition: the program loads and packs the circuit, builds its contexts, and under every schedule every party obtains, in every repetition, shares of tables that garble the packed circuit under the parties' coins.", "quantifier": "every circuit text accepted and well formed, parameters in range, number of repetitions, coins, schedule", "why_tests_cant": "all circuits, coins and interleavings", "anchors": ["src/bin/garble.rs: garble benchmark", "src/garble.rs: garble"]}
{"id": "C55", "title": "The preproc program produces the material of the circuit file", "statement": "From the text of a circuit file and the text of a binary matrix file to the end of the last repetition: the program loads both, describes the material needed, and under every schedule, in every repetition, the parties obtain sharings of exactly the material described, made from the polynomials their coins determine.", "quantifier": "every accepted circuit text, every matrix text of n lines, parameters in range, number of repetitions, coins, schedule", "why_tests_cant": "all circuits, coins and interleavings", "anchors": ["src/bin/preproc.rs: preprocessing benchmark", "src/protocol/preproc.rs: preproc"]}
{"id": "C56", "title": "Garbling with generated preprocessing is correct under every interleaving", "statement": "Running preproc and then garble on its result, on two root ids neither of which is a prefix of the other, ends in every run without panic and gives sharings of tables garbled with the masks, keys, randoms and errors the preprocessing coins determine, even when a fast party garbles while slow parties still preprocess.", "quantifier": "every well-formed packed circuit, coins, ids and schedule", "why_tests_cant": "interleavings of two protocols over all circuits and coins", "anchors": ["src/protocol/preproc.rs: preproc", "src/protocol/garble.rs: garble"]}
{"id": "C57", "title": "The preproc_size program reports the size of the material", "statement": "For every accepted circuit the program ends and prints the description, the exact serialized size of one party's dummy material and the numbers of sharings made in batches; material generated by preproc is at least as large as reported, larger by less than two batches, and not always equal.", "quantifier": "every accepted circuit text and parameters in range, all material generated by preproc", "why_tests_cant": "all circuits and batch sizes", "anchors": ["src/bin/preproc_size.rs: benchmark", "src/protocol/preproc.rs: PreProcSer"]}
{"id": "C58", "title": "Traffic differences are exact per party; the byte counter undercounts the wire", "statement": "However the reads of the counters interleave with arriving messages, Stats::elapsed never underflows and gives for each party exactly the traffic of its messages that arrived between the two reads; a message occupies 2 to 10 bytes more on the wire than net_bytes counts.", "quantifier": "every history of arrivals and requests, every placement of the reads; every frame", "why_tests_cant": "all interleavings of reads with arrivals", "anchors": ["src/lib.rs: Stats", "src/protocol/network.rs: StatsRequest handling"]}
{"id": "C59", "title": "Collecting the figures with --save: what party 0 gets, and whether the programs end", "statement": "After the last repetition every party sends its figures to party 0, which answers everybody. As long as processes live until their messages have left, every run ends, party 0 has the figures of all parties in party order and only party 0's message to itself is left over. With processes that end as the programs do (no task runs after the main future returns), party 0's answer never leaves its process: every run is finite, party 0 returns and no other party ever does.", "quantifier": "every accepted circuit text, parameters in range, number of repetitions, figures, coins and schedule", "why_tests_cant": "all interleavings of n processes and of the tasks inside a process; the loss happens at process exit", "anchors": ["src/bin/garble.rs: save", "src/bin/preproc.rs: save", "src/protocol/network.rs: send_router", "src/protocol/network.rs: message_from_each_party"]}
{"id": "C60", "title": "A coalition of at most t parties learns nothing from reduce_degree, mult and trans", "statement": "Let A be a set of at most t parties, possibly containing the leader. For two inputs of reduce_degree, mult or trans whose shares at A are the same there is a shift of the masks, itself a valid pair of masks and zero at A, such that the execution on the first input with any masks and the execution on the second with the shifted masks cannot be told apart by A: every run of one is matched step by step by a run of the other with the same messages on the network, the same mailboxes and the same local states at A. This holds whatever code A runs. The results of the other parties differ by the shift.", "quantifier": "every field, parameters, coalition, pair of inputs that agree at the coalition, masks, coins of the leader, code of the coalition, and schedule", "why_tests_cant": "relates pairs of executions for all masks, inputs, adversaries and interleavings; a single run shows nothing about what is hidden", "anchors": ["src/protocol/core.rs: reduce_degree", "src/protocol/core.rs: mult", "src/protocol/core.rs: trans"]}
{"id": "C61", "title": "Messages of garble do not disclose the masks to t parties", "statement": "For every circuit and every set of at most t parties, any two assignments of masks to the wires are compatible with what these parties start with and the messages sent to them in garble.", "quantifier": "every field, parameters, packed circuit, preprocessing, coins, coalition and schedule", "why_tests_cant": "compares the views of all pairs of executions; outputs are correct whether or not shares of other parties can be computed from the traffic", "anchors": ["src/protocol/core.rs: RandSharingTransform::new, randtrans, trans", "src/protocol/garble.rs: GarbleContext::new (input transformations), garble"]}
{"id": "C62", "title": "At most t parties learn nothing about masks, labels and errors from garble unless a transformation they lead repeats mask shares", "statement": "Let A be a set of at most t parties such that for each block of gate inputs with p wires, o of them different, the party leading its transformation is not in A, or for each m in A with p + m < l the party p + m - o is in A as well. Then for everything A can see in garble (its shares of the material, its coins, all messages sent to it in any execution) and for all other masks, labels and errors there are random sharings, zero sharings and coins of the others with which A sees exactly the same. The condition holds for every A if only full blocks repeat an input wire, for every circuit if A has none of the first l parties, and if A leads no transformation of gate inputs.", "quantifier": "every field, parameters, packed circuit, coalition that meets the condition, preprocessing, coins, alternative secrets and schedule", "why_tests_cant": "compares the views of all pairs of executions; garbled tables are correct whether or not messages disclose secrets", "anchors": ["src/protocol/garble.rs: garble", "src/protocol/core.rs: randtrans, trans, mult", "src/protocol/preproc.rs: PreProc"]}
{"id": "C63", "title": "Preprocessing and garbling together disclose nothing to t shielded parties", "statement": "Let the rows of the two matrices of preproc stay independent without the columns of a coalition A of at most t parties, and let garbling shield A in the sense of C62. Then for all coins of preproc followed by garble and for all other masks, labels and errors, there are coins of the parties outside A with which preproc produces sharings of these and garble tables made of them, while A draws the same coins, holds the same shares of the material, and is sent exactly the same messages from beginning to end. The matrix built by super_inv_matrix with n - t rows meets the condition for every coalition of t parties.", "quantifier": "every field of characteristic two, parameters, matrices, packed circuit, coins, coalition that meets the conditions, alternative secrets and schedule", "why_tests_cant": "compares the views of all pairs of executions of two protocols run one after the other; results are correct whether or not messages disclose secrets", "anchors": ["src/protocol/preproc.rs: rand, zero, randbit, PreProc::preproc", "src/protocol/garble.rs: garble", "src/math/mod.rs: super_inv_matrix"]}
{"id": "C64", "title": "The shipped binary matrices hide random bits from as many parties as they are made for", "statement": "A matrix file of data/binsup_mat hides every sum of results of randbit from all sets of at most t parties exactly if each sum of its columns has more than t ones; if a sum has ones only at the parties of a set, these compute the sum of the corresponding random bits from their own. Every shipped file nN_tT.txt hides from any T of N parties.", "quantifier": "every field of characteristic two, matrix file, coalition, coins, number of sharings and schedule", "why_tests_cant": "a statement on all sums of columns and all coalitions; the bits that randbit outputs are correct bits whatever the distance of the code", "anchors": ["data/binsup_mat", "scripts/gen_binary_supmat.py: gen_mat_bch", "src/protocol/preproc.rs: randbit", "src/math/mod.rs: binary_super_inv_matrix"]}
{"id": "C65", "title": "The protocols run on the real network stack as they do on an ideal one", "statement": "Take code whose every schedule ends with given results when messages wait in a mailbox at each party. If it sends to existing parties only, ids of at most 255 bytes over TCP, and never awaits one id twice at the same time, then every execution on the stack - tasks with oneshot channels, the request channel, receive_router with its two pools and statistics, send_router or the local router, frames as bytes on TCP streams, all interleaved in any way - is finite and ends with these results, with no message or request left anywhere and with statistics that count all bytes received. Preprocessing followed by garbling and the programs garble and preproc do so. With the final report of --save, and as long as processes live until their messages have left, party 0 has the figures of all parties and the only message left is the one party 0 sends to itself, which stays in the pool of its router.", "quantifier": "every number of parties, code that meets the conditions, interleaving of all tasks of the stack; for the protocols all fields, parameters, circuits and coins", "why_tests_cant": "interleavings of the tasks of n parties and of bytes on n^2 streams cannot be enumerated; a lost wake-up or a reply handed to the wrong task occurs under rare schedules only", "anchors": ["src/protocol/mod.rs: ProtoHandle::send, recv", "src/protocol/network.rs: receive_router, send_router, party_sender, party_receiver, setup_tcp_network, setup_local_network", "src/bin/garble.rs", "src/bin/preproc.rs"]}
{"id": "C66", "title": "What at most t parties see of garble has the same distribution for all masks, labels and errors", "statement": "Deal the material with the code's own share, rand and zero sharing from independent uniform coins, for any given masks, labels and errors, and let all coins of garble be independent and uniform. For every coalition that meets the condition of C62 and every other choice of masks, labels and errors there is a bijection of the outcomes of all coins under which the coalition sees exactly the same: its shares of the material, its own coins, and all messages sent to it in any execution. Hence every event the coalition can observe has exactly the same probability with either choice.", "quantifier": "every field (finite for the count), parameters, packed circuit, coalition that meets the condition, secrets, and observable event", "why_tests_cant": "equality of distributions over all coins of all parties; sampling cannot show that two distributions on a space of this size are equal", "anchors": ["src/protocol/garble.rs: garble", "src/protocol/core.rs: randtrans, trans, mult", "src/sharing.rs: share, rand"]}
{"id": "C67", "title": "How much each party sends to each other is a fixed function of the parameters, and exactly this arrives", "statement": "In every execution of preprocessing followed by garbling, and of the programs preproc and garble, on the whole TCP stack, the messages that a party receives from another one have the numbers and lengths given by closed formulas in n, t, l, the LPN parameters, the rows of the matrices and the packed circuit: two shares per column and batch of transformations to everybody; a message to a leader and its answers for each transformation, each error batch (twice) and each gate (an AND twice); eight bytes and ceil(w/8) bytes per element each. The statistics of the parties show these numbers of bytes. The totals over all pairs do not depend on who leads which gate.", "quantifier": "every field, parameters, circuit, coins, hash function, pair of parties, price of a message as a function of its length, and interleaving of the stack", "why_tests_cant": "the numbers must hold for all parameters and schedules; a duplicate or superfluous message leaves the results right and passes the tests", "anchors": ["src/protocol/core.rs: reduce_degree, mult, trans, randtrans", "src/protocol/preproc.rs: preproc, rand, zero, randbit", "src/protocol/garble.rs: garble", "src/protocol/network.rs: Stats", "src/bin/garble.rs", "src/bin/preproc.rs"]}
{"id": "C68", "title": "The communication estimates of the script are lower bounds, exact up to headers, rounding and INV gates", "statement": "For every circuit and all parameters with l >= 1, t < n, the totals that scripts/communication_estimates.py prints for the two phases of the semi-honest protocol (times n) are at most the bytes of field elements that garble and preproc send, and hence at most the traffic of the programs. Without INV gates the garbling estimate is at most 8 K n^2 elements too low, and both are exact if the numbers of wire blocks and of gate input blocks are multiples of l. In general they are not exact (refuted): each block of INV gates costs at least n (10 K + 6) elements that the script ignores, the script rounds the number of batches once where the code rounds it per column, and every message has eight more bytes. The numbers of packed blocks that the script assumes are those that pack makes.", "quantifier": "every circuit, field width, parameters, and interleaving of the stack", "why_tests_cant": "an estimate and a protocol can only be compared for the parameters that somebody runs; the claim is about all of them", "anchors": ["scripts/communication_estimates.py: semihon_protocol, ProtoCtr", "src/protocol/garble.rs: garble", "src/protocol/preproc.rs: preproc, PreProcCount::describe", "src/circuit.rs: pack"]}
{"id": "C69", "title": "What at most t parties see of preprocessing and garbling is independent of the masks, the labels and the errors", "statement": "Run preproc and then garble, with all coins of all parties independent and uniform, over a finite field. Let the rows of the two matrices of preproc stay independent without the columns of a coalition of at most t parties, and let garbling shield the coalition in the sense of C62. Then every event the coalition can observe (from its shares of the material, its coins in both protocols and all messages sent to it in any execution) is statistically independent of the masks, the labels and the errors: the probability of the event is the same given any of their values. Masks and labels are uniform, also given the event and the errors, and no masks, labels and errors are impossible.", "quantifier": "every finite field of characteristic 2, parameters, packed circuit, coalition that meets the condition, secrets and observable event", "why_tests_cant": "equality of conditional distributions over all coins of all parties in two protocols", "anchors": ["src/protocol/preproc.rs: preproc, rand, zero, randbit, error", "src/protocol/garble.rs: garble", "src/protocol/core.rs: randtrans, trans, mult"]}
{"id": "C70", "title": "The noise of the ciphertexts is Bernoulli with rate 1/4, also given what a coalition sees", "statement": "In the setting of C69, each coordinate of each error that preproc makes is non-zero with probability exactly (1 - 1/|F|)/4, given any event the coalition can observe. Given masks, labels, all other coordinates and such an event, zero is exactly 3|F| + 1 times as likely as any other given element: coordinates are independent, and non-zero values are uniform.", "quantifier": "every finite field of characteristic 2, parameters, packed circuit, coalition that meets the condition of C69, coordinate, and observable event", "why_tests_cant": "an exact distribution; the security of LPN encryption and the decryption error rest on it", "anchors": ["src/protocol/preproc.rs: error", "src/protocol/preproc.rs: randbit", "scripts/gen_lpn_params.py: tau"]}
{"id": "C71", "title": "A row of a garbled table can be decrypted except with the error that the parameter script computes", "statement": "Run preproc and then garble with uniform coins, with LPN parameters K < M. Except with probability at most the script's correctness_error(M, K + 1, 2), a given row of a given table can be read: the shares of its symbols reconstruct, and minus the key's part they are a word that is at most (M - K - 1)/2 symbols from the code word of the row's plaintext and from no other. This holds given any event that a coalition as in C69 can observe. The probability that some row of some table cannot be read is at most that many times the number of rows and slots. If the script accepts (M, K + 1) for a bound 2^-b, so is the probability at most 2^-b. The code corrects exactly (M - K - 1)/2 errors: with k = K instead of K + 1 the script's weight is one too many whenever M - K is even.", "quantifier": "every finite field of characteristic 2 with enough points, parameters, packed circuit, row and slot, observable event and bound", "why_tests_cant": "a probability of 2^-40 over the coins of all parties cannot be sampled", "anchors": ["src/protocol/garble.rs: garble", "src/protocol/preproc.rs: error", "src/math/mod.rs: rs_gen_mat", "scripts/gen_lpn_params.py: correctness_error"]}
{"id": "C72", "title": "The script that searches LPN parameters prints parameters that keep its bounds", "statement": "If gen_lpn_params.py prints N and k for an error rate 2^-tau with tau >= 1, a field of at least two elements and at least one bit of security, then 2 <= k <= N, at most one in 2^bits of the ways for the errors of a row of N symbols has more errors than half the distance, and the estimated costs of pooled Gauss and of statistical decoding reach the security bound. If feasible lengths are closed upwards, N is the least feasible length up to 1500; if the length 1500 is feasible something is found. (With an arbitrary security estimate the error bound fails: find_k_correct returns k = 1 untested.)", "quantifier": "every noise rate, bound, field size and security level", "why_tests_cant": "binary searches over functions that are not tabulated; boundary cases", "anchors": ["scripts/gen_lpn_params.py: correctness_error, find_k_correct, find_k_sec, find_k, find_lpn_params"]}
{"id": "C73", "title": "The script that makes binary matrices finds the largest and its matrices hide from the coalitions it promises", "statement": "find_bch_rs returns parameters iff an inner BCH code of length 2^m (m <= 10) and an outer Reed-Solomon code fit the number of parties and the ratio, and then those with the most rows; for them a file is generated, which the library loads; the matrix of the file hides sums of random bits from every coalition smaller than the product of the distances of the two codes, which is the number printed. (Refuted: the search accepts n_rs = 2^k where the generator asserts n_rs < 2^k; the column of ones added to the inner generator does not raise its distance by one, so the number printed can be too large.)", "quantifier": "every number of parties and ratio; every field with vectors of bits, inner generator matrix and coalition", "why_tests_cant": "optimality over all parameters and a minimum distance over exponentially many words", "anchors": ["scripts/gen_binary_supmat.py: check_rs, find_bch_rs, gen_mat_rs, gen_mat_bch, encode_concat, gen_mat_concat, main"]}
{"id": "C74", "title": "The shipped circuit sub64.txt subtracts, and what the tables made of it compute", "statement": "from_bristol_fashion reads data/circ/sub64.txt; the circuit is well formed, and on the bits of x and y the evaluation of the circuit gives the bits of x - y mod 2^64. With inverters replaced by wires, which is what the tables of INV gates do (C43), the circuit gives the bits of x + y mod 2^64. For every packing parameter the numbers of blocks are those of 63 AND, 313 XOR and 63 INV gates and 128 inputs.", "quantifier": "all pairs of 64 bit numbers; all packing parameters", "why_tests_cant": "2^128 inputs; the test has one", "anchors": ["data/circ/sub64.txt", "src/circuit.rs: from_bristol_fashion, eval, pack", "tests in src/circuit.rs"]}
{"id": "C75", "title": "For which packing parameters garbling a shipped circuit ends", "statement": "With matching material all executions of garble end with all parties done if and only if none of the five numbers of ids it asks for is a power of 256; otherwise no party ever returns, whatever the others do. For sub64.txt this means packing parameters up to 24 (on TCP connections, too); for the counts of aes_128.txt all up to 192 but 146; for those of sha256.txt all up to 370.", "quantifier": "every circuit, number of parties, schedule, field and material; every packing parameter", "why_tests_cant": "infinitely many parameters and executions; non-termination cannot be observed", "anchors": ["src/garble.rs: garble", "src/bin/garble.rs: benchmark, garble", "src/protocol/mod.rs: ProtocolIDBuilder", "data/circ/*.txt"]}
{"id": "C76", "title": "Which texts the reader of circuits accepts", "statement": "from_bristol_fashion returns a circuit on exactly the texts of an explicit grammar and panics on all others: four header lines whose tokens start with the counts and lengths (32 bit numbers, a plus sign and vertical tabs allowed), then for every gate a line with a number of inputs, a number, that many inputs, the output, anything, and AND, XOR or INV. The grammar is unambiguous. All wires are 32 bit numbers, inputs are consecutive from wire 0, outputs are existing wires. (Refuted: accepted lines have the arity of their gate - a third input of an XOR is dropped silently; gates use existing wires.)", "quantifier": "all texts and circuits", "why_tests_cant": "infinitely many texts; tests read three files", "anchors": ["src/circuit.rs: from_bristol_fashion"]}
{"id": "C77", "title": "Estimating circuits with INV gates as the README advises", "statement": "Counting the INV gates of a circuit as XOR gates, as the README advises, the script's estimate of the garbling phase is at least the actual communication up to the rounding of C68 (8 K n^2 field elements), whenever the packing parameter divides the number of XOR gates or that of INV gates, for the numbers of the README's example (AES-128, packing parameter 33), and for every circuit if l further XOR gates are added. It is enough, and exact statements follow, when the blocks of XOR and of INV gates together are at most those estimated. (Refuted: the estimate is always at least the actual communication - XOR and INV gates do not share blocks.)", "quantifier": "all circuits, field sizes, numbers of parties, thresholds, packing and LPN parameters", "why_tests_cant": "the script and the library are never run together; infinitely many circuits and parameters", "anchors": ["README.md: Maliciously secure protocol", "scripts/communication_estimates.py: semihon_protocol", "src/protocol/garble.rs: garble", "src/circuit.rs: pack"]}
{"id": "C78", "title": "Floating point division in the estimate scripts", "statement": "int(math.ceil(a / b)), with a / b rounded to binary64, is the exact quotient rounded up for all a < 2^53 and 0 < b <= 2^53; at a = 2^53 + 1, b = 1 it is too small.", "quantifier": "all natural numbers a < 2^53, 0 < b <= 2^53", "why_tests_cant": "about 2^106 pairs of numbers", "anchors": ["scripts/communication_estimates.py: ProtoCtr", "scripts/computation_estimates.py: ProtoCtr"]}
{"id": "C79", "title": "The estimates of the malicious protocol and of the computation", "statement": "communication_estimates.py and computation_estimates.py count the same preprocessed material, in the semi-honest and in the malicious protocol. Every line of the malicious communication estimate is at least the semi-honest one; the plaintexts cost exactly lenmac + 1 times as much, the transformations at most; verification costs n^2 (3 ceil(128 / f) + 2 lencheck + 2 lenmac) field elements whatever the circuit. Every line of the malicious computation estimate has at least as many additions and multiplications, for circuits with at least one wire and t + l <= n. (Without wires the estimate is negative.) The totals are the sums of their lines; the cost of the MAC keys, of the random sharings, zero sharings and random bits, and every line of the computation are given exactly.", "quantifier": "all circuits, numbers of parties, thresholds, packing, LPN, MAC and check parameters", "why_tests_cant": "infinitely many parameters; the scripts have no tests", "anchors": ["scripts/communication_estimates.py: malicious_protocol", "scripts/computation_estimates.py: malicious_protocol", "scripts/computation_estimates.py: semihon_protocol"]}
{"id": "C80", "title": "The security estimate of the parameter script is the least of the costs it considers", "statement": "analysisforq of lpn_param.py: com(n, m) is the number of m-subsets for m <= n. The cost of pooled Gauss is 2.8 times the logarithm of the smaller dimension, less the logarithm of the share of the choices of t error positions that miss k given positions, if t <= N - k; statistical decoding likewise with k + 1 positions, twice. Information set decoding with parameters l, p (rounded so that k + l = 2h and p = 2j): the probability used is the share of the choices of the errors with j in each of two given parts of h positions; the cost is that of one iteration, the script's formula in the list length C(h, j) (q-1)^j, less its logarithm, cut off at 230. The estimate is the cost of one of the three attacks, information set decoding with some l and p >= 0, and if it is a number it is at most the costs of the first two; it is a number for 1 <= k <= N - 2. The search for l finds the least cost if costs fall and then rise (neighbours may be equal), and so does the loop over p in spite of its early stop. No exception occurs for even N. (For t > N - k the cost of pooled Gauss is finite although it never succeeds; for odd N with 3 <= N - k <= 39 and at least two errors a division by zero makes the estimate 0.)", "quantifier": "all numbers of queries, secret lengths, numbers of errors and field sizes; all functions of l for the search", "why_tests_cant": "real-valued formulas over unbounded parameters; exceptions are swallowed, so wrong values do not surface", "anchors": ["scripts/lpn_param.py: com, Guass, sub_SD_ISDq, min_SD_ISDq, SD_ISD_q, Ourparitycheckforq, analysisforq", "scripts/gen_lpn_params.py: sec_lpn"]}
{"id": "C81", "title": "The computation estimate counts the field operations of the library", "statement": "The numbers of field additions and multiplications computation_estimates.py assumes are those of the library's own computations: exactly, for sharing, sharing random values, reconstruction with and without check, the generation of random, zero and bit sharings, and a multiplication; for all calls of mult together at most, and exactly if n divides the number of products; for the leader of a transformation and the selection of wires at most, and exactly for full blocks; for garbled tables and messages the multiplications exactly. (The additions of the messages are 5K + 6 too few for a block of AND gates and K - 2 too many for a block of XOR gates. For the random sharings of the transformations the script counts too little by exactly n(n-l) + t(t+l) multiplications and (n-l)(n-1) + t(t+l-1) + 2n additions for each column.)", "quantifier": "all fields, numbers of parties, thresholds, packing and LPN parameters, all shares and coins", "why_tests_cant": "infinitely many parameters; the library does not count operations and the scripts have no tests", "anchors": ["scripts/computation_estimates.py: ProtoCtr", "src/sharing.rs: share, recon, semihon_recon, rand", "src/protocol/core.rs: mult, trans, randtrans, RandSharingTransform", "src/protocol/preproc.rs: rand, zero, randbit", "src/protocol/garble.rs: select_and_trans, garble_and, garble_xor, garble_inv"]}
{"id": "C82", "title": "The communication figure of a repetition", "statement": "For each repetition the programs garble and preproc report the traffic of that repetition: in every schedule, what arrives at a party between its two readings of the counters is a multiset of messages that does not depend on the schedule, except that messages of the protocol which were in the mailbox at the first reading are missing and messages of the sync of the next repetition which are there at the second reading are included (at most one of each party). The same on the whole network stack, in bytes: between the two readings the counters of receive_router for each sender grow by the payload and total bytes of the repetition from that sender, less those of the messages that wait in the router at the first reading, plus those of the messages that wait there at the second. In total, until the end, exactly the messages of all repetitions and of their syncs arrive. (The exception is real: with at least two parties some schedule has such early messages, and the figure is then too small; it can also be too large.)", "quantifier": "all circuits, parameters, numbers of repetitions, coins and schedules", "why_tests_cant": "depends on the interleaving of all parties; a test sees some schedules and has no figure to compare with", "anchors": ["src/bin/garble.rs:114-141", "src/bin/preproc.rs:114-145", "src/lib.rs: Stats::now, Stats::elapsed", "src/protocol/network.rs: receive_router, sync"]}
