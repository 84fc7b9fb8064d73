# Formal model of mmx-node in Rocq (Coq 8.16.1)

Sources: `/repo` (C++ and the JavaScript-like contracts), read as text and never built.
Model, specifications and proofs: `/verif/rocq/theories`. Properties: `properties.jsonl`. Status: `MANIFEST.json`.
Wrong programs tried against the theorems: `seeded/LOG.jsonl`.

## 1. Conventions

* For every area `X` there are up to four kinds of files:
  * `XModel.v` - definitions that transcribe the code, each with a `file:lines` citation and the simplifications made;
  * `XSpec.v`  - the small independent specification used in the statements (no reference to the model's helpers);
  * `X...Proofs.v` - lemmas;
  * `XProps.v` - the property theorems, each followed by `Print Assumptions` and by `Example`s showing that a concrete
    non-trivial case meets the hypotheses.
* Theorem names: `Cnn_...` belongs to property Cnn. Suffix `_partial`: something of the English statement is missing,
  the note in section 5 says what. Suffix `_refuted`: the faithful model violates the English statement and the theorem
  is a concrete counter-example; a positive theorem then states under which additional condition the property holds.
* Integers of the code are `N`/`Z` with explicit wrap (`mod 2^64` ...) wherever wrapping is reachable.
* Exceptions are explicit outcomes. Undefined behaviour is an outcome of its own (`UB` in the contract engine).
  Functions by recursion on fuel have a distinct outcome for "out of fuel", shown unreachable.
* Cryptographic hashes, signature verification, and libraries outside the repository are parameters
  (Section variables that are universally quantified in the theorems), never axioms.
* `std::map` is a list of pairs sorted by key (`OrdLib.v`).

## 2. Trusted base

* The kernel of Coq 8.16.1 (`coqc`; `coqchk` re-checks the compiled files), OCaml, and the machine it runs on.
  `vm_compute` is used for examples and counter-examples, so the kernel's virtual machine is part of it. `native_compute` is not used.
* `Print Assumptions` of **every** theorem named in `MANIFEST.json` answers "Closed under the global context": no axiom at all.
  No axiom of the standard library (functional extensionality, excluded middle, proof irrelevance, the reals) is used.
* A global listing of the loaded libraries (what `coqchk -o` or `vcheck` print) also shows `Coq.ssr.ssrunder.Under_rel.*`. These belong to a
  sealed module of the standard library that is loaded with `ssreflect` by `std++`; no theorem here depends on them.
* No `Axiom`, `Parameter`, `Admitted`, `admit`, no `Variable`/`Hypothesis` outside a Section, no functor or module type, no disabled
  guard/positivity/universe check, no OCaml plugin.
* **The transcription**: that the definitions of the `*Model.v` files say what the cited C++ says. This was done by reading. It is not
  mechanised; it is what the citations, the simplification notes and the mutation tests are for.
* The reading of C++: arguments evaluated left to right, unsigned integers wrap, `std::map`/`std::vector`/`std::string` behave as the
  standard says, files keep what was written in order (a crash may lose a suffix of the log only).

## 3. What is modelled

| Area | Files of the model | Code |
|------|--------------------|------|
| Table (key-value store), log, blocks, merge, revert, restart | `DbModel` | `src/DataBase.cpp:104-752`, `include/mmx/DataBase.h` |
| Iterator over a table | `DbIterModel` | `src/DataBase.cpp:753-1002` |
| Byte keys, typed and multi-value tables | `KeysModel`, `MultiModel` | `include/mmx/table.h`, `include/mmx/multi_table.h` |
| Tree hash, recovery phrase, addresses, fixed point | `CodecModel` | `include/mmx/tree_hash.h`, `src/mnemonic.cpp`, `src/addr_t.cpp`, `src/fixed128.cpp` |
| Plot park encodings, line points | `PosModel` | `src/pos/encoding.cpp`, `include/mmx/pos/encoding.h` |
| Byte code packing | `InstrModel` | `src/vm/instr_t.cpp` |
| Contract values: encoding, order | `VarModel` | `src/vm/var_t.cpp` |
| Ids of transactions, operations, contracts | `TxHashModel` | `include/mmx/write_bytes.h`, `src/Transaction.cpp`, `src/operation/*`, `src/contract/*.cpp` |
| Contract engine, every instruction | `EngineModel` | `src/vm/Engine.cpp`, `src/vm/StorageProxy.cpp`, `StorageCache.cpp`, `StorageRAM.cpp` |
| Storage of contracts | `StorModel` | `src/vm/StorageDB.cpp`, `StorageRAM.cpp`, `StorageCache.cpp` |
| Calls by the node, remote calls | `ExecModel` | `src/vm_interface.cpp`, `src/Node_validate.cpp:389-606` |
| Validating and executing a transaction | `TxModel` | `src/Node_validate.cpp:389-463, 608-945`, `src/Transaction.cpp` |
| Validating, applying and choosing blocks | `BlockModel` | `src/Node_validate.cpp:68-370`, `src/Node.cpp:1029-1117`, `src/Block.cpp`, `src/Node_update.cpp:775-925` |
| Parallel validation | `ParModel` | `src/Node_validate.cpp:28-105, 325-345`, `src/Node.cpp:1728-1765`, `src/Node_update.cpp:692-835` |
| Solutions, multi-signatures | `SigModel` | `src/contract/PubKey.cpp`, `MultiSig.cpp` |
| Transaction pool, pending history | `PoolModel` | `src/Node_update.cpp:535-670`, `src/Node_api.cpp:457-490` |
| Rewards, fee split, difficulty, time | `ChainModel` | `include/mmx/utils.h`, `src/BlockHeader.cpp`, parts of `src/Node*.cpp` |
| Fork tree, votes, peak, root | `ForkModel` | `src/Node.cpp`, `src/Node_update.cpp` |
| Challenges | `ChallengeModel` | `src/Node.cpp`, `src/Node_verify.cpp`, `include/mmx/utils.h` |
| Wallet | `WalletModel` | `include/mmx/ECDSA_Wallet.h` |
| Contracts that come with the node | `CtrModel`, `SwapModel` | `src/contract/*.js`, at source level |
| Several tables as one database | `MdbModel` | `src/DataBase.cpp:1005-1072`, `src/Node.cpp:160-215` |
| Proofs of time | `VdfModel` | `src/Node_verify.cpp:80-120,225-445` (VDF parts), `src/Node_update.cpp:61-98`, `src/Node.cpp:953-960,1458-1465,1557-1760`, `src/ProofOfTime.cpp:48-54` |
| Timelord | `TimelordModel` | `src/TimeLord.cpp:83-335` (keys, signatures and logging left out) |
| Switching between chains | `ReorgModel` | `src/Node.cpp:155-213,287-353,390-410,657-900,1029-1162,1289-1425` (tables as one versioned map; pool, file errors and logging left out), `src/Node_update.cpp:278-337` |
| Blocks from other nodes | `FetchModel` | `src/Router.cpp:271-289,407-423,476-507,515-769,1431-1435` (one job at a time, numbers of requests do not wrap, times of jobs as an arbitrary time-out; fetching from a named peer left out) |
| Passing messages on | `RelayModel` | `src/Router.cpp:302-405,434-456,1013-1139,1150-1270,1631-1691,1733-1761` (writing to a valid connection succeeds; the traffic budget decides arbitrarily about unreliable messages) |
| Mistyped addresses | `CodecModel` | `src/addr_t.cpp:15-56` |
| Contract compiler | `CompModel` | `src/vm/Compiler.cpp:346-572,633-775,806-827,848-919,971-1358,1360-1707,1818-1826,1981-2229` (functions, variables, control flow, operators, calls, min, max, fail, assert; the grammar, static variables, arrays, objects, interfaces, imports and other built-in functions left out) |
| Proofs of space | `SpaceModel` | `src/pos/verify.cpp:43-253`, `src/pos/verify_full.cpp:16-147`, `src/pos/Prover.cpp:29-250`, `src/Node_verify.cpp:52-72,182-237`, `src/Harvester.cpp:69-87,202-316`, `src/Farmer.cpp:249-263`, `src/ProofResponse.cpp:14-54`, `include/mmx/utils.h:108-114,161-220` (hash functions and signatures as parameters; CUDA and remote computation, reading of files and metadata parks left out) |
| Voting and making blocks | `FarmModel` (on top of `ForkModel`) | `src/Node_verify.cpp:24-49,87-110`, `src/Node.cpp:473-486,898-925,944-952,1767-1777`, `src/Node_update.cpp:160-190,236-239,260-528,923-1052` (VDF points, the content of a block besides parent, height and proofs, and the answers of farmers are arbitrary; of a commit only the purge of proofs up to its VDF height) |
| Contracts that sell tokens | `SaleModel` (on top of `CtrModel`) | `src/contract/fixed_price_token.js`, `src/contract/fixed_price_liquid_token.js`, `src/contract/crypto_horse_race.js` (at the level of the source; the index of a horse is an unsigned integer; memos left out) |
| Histories of addresses | `HistModel` (on top of `BlockModel`) | `src/Node_api.cpp:388-584`, `include/mmx/table.h:206-254`, `src/Node.cpp:1055-1079`, `src/Block.cpp:79-131` (time stamps and flags of an entry left out; what the pool adds is an arbitrary list; the hash of address and memo is a parameter) |
| Liquidity of users | `LiqModel` (on top of `SwapModel`) | `src/Node.cpp:1221-1262`, `src/Node_api.cpp:1431-1456` (arguments of calls as numbers; of get_swap_info the tokens) |
| Queries of offers and trades | `OfqModel` (on top of `CtrModel`, `HistModel`) | `src/Node.cpp:1164-1285` (rows of offers), `src/Node_api.cpp:647-675,992-1179`, `src/offer_data_t.cpp`, `include/mmx/table.h:147-254` (time stamps and floating point prices left out; the hash of currencies is a parameter; tokens that an address has before an offer is deployed there do not count) |
| Farmers and their blocks | `FrkModel` (on top of `HistModel`, `OfqModel`) | `src/Node.cpp:927-933,1029-1034,1122-1161,1289-1353`, `src/Node_api.cpp:1455-1512` (of apply and revert only the table and the ranking; DataBase::revert as a return to the table before a block; std::sort is any function that sorts; whether a revert is deep is arbitrary) |
| What the node and the wallet do with swaps | `EstModel` (on top of `SwapModel`) | `src/Node_api.cpp:889-932,1227-1351,1408-1430` (get_swap_info, get_swap_trade_estimate, get_swap_fees_earned, get_swap_equivalent_liquidity, call_contract as a run on a copy of the state without crediting the deposit), `src/Wallet.cpp:417-520` (only the operations) |
| Offers made by the wallet | `WofModel` (on top of `CtrModel`, `OfqModel`) | `src/Wallet.cpp:316-395` (only the operation and its deposit), `src/Node_api.cpp:992-1022`, `src/offer_data_t.cpp:28-35` |
| Balances told by node and wallet | `BalModel` (on top of `WalletModel`) | `src/Node_api.cpp:677-780`, `src/Wallet.cpp:637-745`, `include/mmx/table.h:182-203` |
| Lists of contracts, history of a contract | `LstModel` (on top of `HistModel`, `OfqModel`) | `src/Node.cpp:1035-1103`, `1164-1242`, `src/Node_api.cpp:647-675`, `776-786` |
| Sync: requests for heights, answers, retries, being synced | `SynModel` | `src/Node.cpp:265-270`, `515-634`, `src/Node_update.cpp:303-395` |
| Pooling: partials, their text, signature and check, reward target of plot NFTs | `PolModel` | `src/Partial.cpp:16-46`, `src/Node_api.cpp:941-990`, `1514-1589`, `src/Node_validate.cpp:173-193`, `src/Farmer.cpp:265-282`, `src/Harvester.cpp:262-285` |
| Vote on the block reward: price files, medians, requests | `CtlModel` | `src/Node_control.cpp` |
| Storage of contracts as told by the node, at heights | `RdsModel` | `src/vm/StorageDB.cpp:17-213`, `src/Node_api.cpp:788-886` |
| Locking, signing and sending with the wallet | `SgnModel` | `include/mmx/ECDSA_Wallet.h:58-127, 182-189, 334-533`, `src/Wallet.cpp:105-314, 544-601, 881-914`, `src/Node_validate.cpp:410-412, 645-656, 679-696`, `src/Transaction.cpp:79-118, 196-202, 227-262, 285-294` |
| Peers of the router: identities, bans, choice of peers | `PrsModel` | `src/Router.cpp:108-126, 154-230, 264-295, 786-908, 1000-1011, 1301-1352, 1431-1561, 1629-1700, 1733-1741`, `include/mmx/Router.h:86-107` |
| Farmer: report, statistics of partials, signing of blocks and votes | `FrmModel` | `src/Farmer.cpp:33-41, 71-81, 103-185, 203-247, 283-329, 337-380` |
| Transactions by id: file of blocks, index, queries | `QtxModel` | `src/Node.cpp:1079-1149, 1289-1292, 1830-1929, 376-384, 975-979`, `src/Node_api.cpp:225-283, 293-311, 346-372`, `src/Transaction.cpp:308-320`, `src/Node_validate.cpp:264-273, 623-625` |
| Accounts of the wallet and key files | `AccModel` | `src/Wallet.cpp:70-90, 864-879, 917-1093`, `include/mmx/ECDSA_Wallet.h:73-82` |
| Reward for the VDF: named addresses, winner, payout, points of a block | `VrwModel` | `src/Node.cpp:1620-1662, 1800-1828`, `src/Node_validate.cpp:195-205`, `src/Node_update.cpp:224-228, 939-966`, `src/Block.cpp:99-108`, `src/BlockHeader.cpp:15-34` |
| Merging signatures of several parties | `MsgModel` | `src/Transaction.cpp:196-202, 263-294`, `interface/txin_t.vni` |
| List of swaps: index and query | `SwlModel` | `src/Node.cpp:1163-1192, 1212, 1289-1292`, `src/Node_api.cpp:1183-1226` |
| Tokens shown by the wallet | `WtlModel` | `src/Wallet.cpp:58, 1095-1146` |

Simplifications are stated in the header of each model file and at each definition.

## 4. What is not modelled

* The vnx framework (modules, pipes, JSON, the generated type code), sockets, the HTTP and the web interface, the GUI.
* Of `Router`, `Harvester`, `Farmer`, `Wallet.cpp` and `Compiler.cpp` everything beyond the lines listed in section 3; discovery of peers, connections and their limits;
  the plotter; GPU code; the tables of a plot (only the encodings, the prover's look-ups and the checks of a proof).
* SHA-256/512, HMAC, RIPEMD, secp256k1, bech32 (modelled after BIP-350), zlib/deflate: arbitrary functions, or written down from their standard.
* The contracts themselves are modelled at source level; the model of the compiler (section 3) covers a part of the language and is not run on them.
* Wall-clock time other than as an arbitrary input; memory exhaustion; thread scheduling outside validation and the thread pool.
* Byte framing and CRC of database files (a log is the list of records that survive; a torn record is dropped).

## 5. Properties

For each property: status, theorems (with the file of the statement), and what to know.
All theorems listed are closed under the global context.

* **C01 Table lookup returns the newest visible write** - proved. `C01_lookup_newest` (DbProps.v), `C01_default_comparator` (DbProps.v)
* **C02 Flushing and merging are invisible to readers** - proved. `C02_flush_merge_invisible` (DbProps.v). lookups and current_version; scans in C07
* **C03 Revert drops exactly the writes at or above the given version** - proved. `C03_revert_exact` (DbProps.v)
* **C04 Crash safety of a table** - proved. `C04_crash_safe` (DbProps.v), `C04_committed_data_survives` (DbProps.v). finalisation of a block merge is one effect here, see C06
* **C05 Committed version survives a restart** - partial. `C05_refuted` (DbProps.v), `C05_version_survives_partial` (DbProps.v). false of the code as modelled after a commit that flushes; proved when the last commit did not flush
* **C06 Merge crash leaves no duplicate block** - partial. `C06_merge_crash_partial` (DbMergeProps.v), `C06_refuted` (DbProps.v). false of the code as modelled: committed data is lost after the next merge and restart; holds unless the process dies while two or more sources are left
* **C07 Iteration is sorted, complete and newest-valued** - proved. `C07_iteration` (DbIterProps.v). Table::Iterator over memory and every block, for every table reached by inserts, commits, flushes, merges, reverts and restarts. Iteration while the table is changed at the same time is not modelled.
* **C08 Changing iteration direction visits the true neighbour** - partial. `C08_neighbour_partial` (DbIterProps.v), `C08_one_source` (DbIterProps.v), `C08_refuted` (DbIterProps.v), `C08_skips_refuted` (DbIterProps.v). Proved as long as the direction does not turn, and for turns when the current key is stored wherever the neighbour is (all keys in one place). Refuted otherwise: keys 1 and 3 in a block, 2 in memory: seek_prev(3) stands on 2 and next() ends instead of giving 3.
* **C09 Multi-value tables keep every value in insertion order** - proved. `C09_uint` (MultiProps.v), `C09_hash` (MultiProps.v), `C09_hash_uint` (MultiProps.v). insert_many, find, find_last, find_range and scan of the three classes of multi_table.h on the table of C01-C07, with commits, reverts and restarts. Not modelled: the truncation of find_last_range, and values that do not decode.
* **C10 Table keys keep order and identity** - proved. `C10_uint_keys` (KeysProps.v), `C10_uint_uint_keys` (KeysProps.v), `C10_hash_keys` (KeysProps.v), `C10_hash_uint_keys` (KeysProps.v), `C10_hash_uint_uint_keys` (KeysProps.v), `C10_balance_keys` (KeysProps.v)
* **C11 VM values survive storage** - proved. `C11_round_trip` (VarProps.v), `C11_shortest_width` (VarProps.v), `C11_injective` (VarProps.v). All value types, both option flags, any trailing data; binaries below 2^32-1 bytes as enforced by the allocator.
* **C12 Deserialising untrusted bytes never reads out of bounds** - proved. `C12_in_bounds` (VarProps.v), `C12_well_formed` (VarProps.v). Decoder modelled as raw reads at data+offset guarded only by the checks written in the code; result independent of memory outside the given length.
* **C13 VM value ordering is a total order that agrees with equality** - partial. `C13_total_order_partial` (VarProps.v), `C13_pointers_partial` (VarProps.v), `C13_refuted` (VarProps.v). Antisymmetric, transitive, total. Zero exactly for identical values, except that arrays are identified by address only: two array values with one address and different sizes compare equal (refuted).
* **C14 Transaction ids bind call arguments** - proved. `C14_operation_preimage` (TxHashProps.v), `C14_contract_preimage` (TxHashProps.v), `C14_tx_id_binds` (TxHashProps.v), `C14_version_0_collides` (TxHashProps.v). Pre-images of operations, all contract types and whole transactions; equal ids force equal signed content unless concrete hashed strings collide. Type ids of the code generator are a parameter assumed distinct.
* **C15 Block header commits to its transaction list** - proved. `C15_tx_hash_binds` (CodecProps.v). SHA-256 is a parameter; transactions are identified with the byte string that is hashed
* **C16 Plot park symbols decode back** - partial. `C16_refuted` (PosProps.v), `C16_accepts` (PosProps.v), `C16_round_trip_partial` (PosProps.v), `C16_offset_partial` (PosProps.v), `C16_offset_refuted` (PosProps.v). false for symbols of 24 and up and for offsets in the last bits of a word; proved for symbols 0..23 and offsets with mod 64 <= 48
* **C17 Recovery phrase round trip** - proved. `C17_round_trip` (CodecProps.v), `C17_checksum` (CodecProps.v). SHA-256 is a parameter
* **C18 Address strings identify addresses** - proved. `C18_round_trip` (CodecProps.v), `C18_injective` (CodecProps.v). the bech32 library is not in the tree and is modelled after BIP-350
* **C19 Fixed-point amounts print and parse exactly** - proved. `C19_round_trip` (CodecProps.v), `C19_no_value_created` (CodecProps.v), `C19_amount_round_trip` (CodecProps.v), `C19_amount_never_grows` (CodecProps.v)
* **C20 Contract byte code survives packing** - proved. `C20_round_trip` (InstrProps.v), `C20_used_operands` (InstrProps.v), `C20_packed_code_behaves_the_same` (ExecProps.v). operands an instruction does not use are not stored; they must be zero for equality
* **C21 Contract execution always terminates within its gas** - proved. `C21_call_ends_within_gas` (ExecProps.v), `C21_instruction_bound` (ExecProps.v). Every call, with all nested remote calls, ends within the instruction bound; success implies gas_used <= gas_limit.
* **C22 VM integer arithmetic is exact or fails** - proved. `C22_arithmetic_exact` (ExecProps.v), `C22_version_0_multiplication_refuted` (ExecProps.v). Instruction-level theorem for ADD, SUB, MUL, DIV, MOD with overflow checking; the refutation shows why tx version >= 1 is needed.
* **C23 Contract code cannot modify constants or call context** - partial. `C23_context_unchanged_partial` (ExecProps.v), `C23_deposit_unchanged_refuted` (ExecCases.v). Everything but the length of the deposit array is constant; POP_BACK can shorten the deposit array (refuted), entries of constant maps can be erased.
* **C24 A contract cannot send more than it owns** - proved. `C24_sent_and_left` (ExecProps.v), `C24_outputs_are_sent` (ExecProps.v), `C24_engine_balance_exact` (ExecProps.v), `C24_balance_instruction` (ExecProps.v). Exact accounting per contract and currency over a call with all nested calls; the balance known to an engine is exact after every instruction.
* **C25 Storage overlay isolates uncommitted changes** - proved. `C25_layers_are_snapshots` (StorProps.v). Any sequence of writes, opens, commits and drops on a stack of caches over the database refines a stack of snapshots. Contracts are told apart by the first 20 bytes of their address (see C58), keys are never overwritten (what the engine keeps to).
* **C26 Transactions conserve every currency** - proved. `C26_currencies_are_conserved` (TxProps.v), `C26_nothing_is_created` (TxProps.v), `C26_nothing_is_lost` (TxProps.v), `C26_contract_balance` (TxProps.v). equality for every currency whose contract the transaction has not locked (so whose mint cannot run); a locked currency contract may add outputs: minted units. Sums of inputs below 2^128 for the equality; creation is excluded without that condition
* **C27 Transaction fee bounds** - proved. `C27_fee_bounds` (TxProps.v), `C27_balances_suffice` (TxProps.v)
* **C28 A failed transaction only costs its fee** - proved. `C28_failed_costs_only_its_fee` (TxProps.v), `C28_succeeded_is_committed` (TxProps.v), `C28_block_without_the_failed` (BlockProps.v). effects of a transaction on a block: Block::get_inputs/get_outputs and the commit of the storage cache
* **C29 Accepted blocks never overdraw any balance** - proved. `C29_no_overdraft` (BlockProps.v), `C29_balances_are_exact` (BlockProps.v)
* **C30 Reported total supply matches balances** - partial. `C30_supply_covers_balances_partial` (BlockProps.v), `C30_supply_is_sum_partial` (BlockProps.v), `C30_native_supply_is_sum_partial` (BlockProps.v), `C30_supply_is_sum_refuted` (BlockProps.v). exact for every token; the native supply is overstated after a block that burns more fees than it creates (Node::apply clamps the change at zero): C30_supply_is_sum_refuted
* **C31 A transaction the node executed re-validates in its block** - partial. `C31_result_is_accepted_partial` (BlockProps.v), `C31_chosen_block_is_accepted_partial` (BlockProps.v), `C31_result_is_accepted_refuted` (BlockProps.v), `C31_chosen_block_is_accepted_refuted` (BlockProps.v). holds when the fee limit covers the cost without rounding and no transaction that succeeded is left out after execution; three counterexamples otherwise
* **C32 Parallel validation equals sequential execution** - proved. `C32_same_as_one_by_one` (ParProps.v), `C32_results_are_final` (ParProps.v), `C32_block_verdict` (ParProps.v). for every interleaving of the steps of the tasks; reads of the shared storage may see any state it had while the transaction ran; every write of a commit is a step of its own
* **C33 Parallel validation cannot deadlock** - proved. `C33_no_deadlock` (ParProps.v), `C33_can_finish` (ParProps.v). never stuck, and a bound on the number of steps
* **C34 Multi-signature threshold** - proved. `C34_enough_owners_signed` (SigProps.v), `C34_enough_signatures_accepted` (SigProps.v), `C34_valid_contract` (SigProps.v), `C34_plain_address` (SigProps.v). address of a public key and verification of a signature are arbitrary functions
* **C35 Block reward and fee split never create or lose fees beyond the rules** - proved. `C35_fee_split` (ChainProps.v), `C35_project_share` (ChainProps.v), `C35_block_reward` (ChainProps.v), `C35_buffer` (ChainProps.v). sums below 2^64
* **C36 Base reward voting stays in range** - proved. `C36_step` (ChainProps.v), `C36_range` (ChainProps.v), `C36_counters` (ChainProps.v)
* **C37 Space difficulty adjustment is bounded and never zero** - proved. `C37_never_zero` (ChainProps.v), `C37_towards_rate` (ChainProps.v). for parameters with which 32-bit counters cannot wrap; mainnet is one
* **C38 Fork choice does not depend on arrival order** - partial. `C38_best` (ForkProps.v), `C38_order_partial` (ForkProps.v), `C38_order_refuted` (ForkProps.v). Proved for every history during which the root stays the same and no block claims to follow the root directly without doing so: update() ends on the best known valid chain, which depends only on the verified blocks and their votes. Refuted by a concrete run when siblings of the root are roots of other forks: the comparison is then not transitive and the order of arrival decides.
* **C39 Each validator counts once** - proved. `C39_votes` (ForkProps.v), `C39_exact` (ForkProps.v), `C39_validators` (ForkProps.v). For every run, commits and deep forks included, the number of votes is the number of distinct validators with a valid vote; while the root stays the same it is the number of votes passed on. The validators are the farmers of the blocks from commit_delay blocks back.
* **C40 Challenge lookup is consistent along the chain** - proved. `C40_lookup` (ChallengeProps.v), `C40_unique` (ChallengeProps.v), `C40_agree` (ChallengeProps.v), `C40_verify` (ChallengeProps.v), `C40_peak` (ChallengeProps.v), `C40_agree_refuted` (ChallengeProps.v). find_challenge, the lookup by VDF height and the header checks of verify_proof; hash functions, difficulty update and header store are arbitrary. C40_agree_refuted: beyond the delay the exception (a space fork in between) is real: a challenge given out further ahead changes.
* **C41 Transaction pool fee accounting** - proved. `C41_fee_accounting` (PoolProps.v), `C41_admission` (PoolProps.v). for pools that never have more than 2^32 transactions, with fees of 32 bits
* **C42 Block building respects the fee-ratio bands** - partial. `C42_chosen_block_passes_partial` (BlockProps.v), `C42_chosen_block_passes_refuted` (BlockProps.v). for non-decreasing bands of which the first is at most one and each has room for the largest transaction; refuted for other parameters
* **C43 Wallet builds balanced, covered transactions** - partial. `C43_balanced_partial` (WalletProps.v), `C43_covered_partial` (WalletProps.v), `C43_enough` (WalletProps.v), `C43_balanced_refuted` (WalletProps.v), `C43_covered_refuted` (WalletProps.v). gather_inputs, complete. Missing: a transaction that already has more inputs than outputs is completed unbalanced (C43_balanced_refuted), and inputs from own addresses that are there before are not counted against the balance (C43_covered_refuted); amounts that add up to 2^128 or more are excluded.
* **C44 Offers trade at the advertised price** - proved. `C44_trade` (OfferProps.v), `C44_accept` (OfferProps.v), `C44_owner_only` (OfferProps.v), `C44_offer_ok` (OfferProps.v), `C44_nft_accept` (OfferProps.v), `C44_nft_owner_only` (OfferProps.v). contract sources modelled method by method over the operations of the engine (the compiler is not modelled); payments below 2^128 as the ledger guarantees; an offer is never made with equal currencies or price zero
* **C45 Swap pools stay solvent** - proved. `C45_solvent` (SwapProps.v), `C45_trade` (SwapProps.v), `C45_can_withdraw` (SwapProps.v), `C45_fair_removal` (SwapProps.v), `C45_fees_computable` (SwapProps.v). every reachable state of a swap contract; balances of the contract and the amount removed below 2^128 for the trade and withdrawal theorems
* **C46 Swap liquidity removal pays out what it removes** - partial. `C46_removal_pays_partial` (SwapProps.v), `C46_all_paid_partial` (SwapProps.v), `C46_refuted` (SwapProps.v). refuted: the public argument dry_run takes liquidity out of the pool, even while locked, and sends nothing; proved for every other call
* **C47 Plot NFT lock protects the farming target** - proved. `C47_locked` (CtrProps.v), `C47_step` (CtrProps.v), `C47_unlock` (CtrProps.v). contract sources modelled method by method (the compiler is not modelled)
* **C48 Custody contracts release funds only to the right party** - proved. `C48_balances` (CtrProps.v), `C48_time_lock` (CtrProps.v), `C48_time_lock_opens` (CtrProps.v), `C48_escrow` (CtrProps.v), `C48_transfer` (CtrProps.v), `C48_relay_step` (CtrProps.v), `C48_token_step` (CtrProps.v), `C48_wallet_step` (CtrProps.v), `C48_wallet_plan` (CtrProps.v), `C48_wallet_cancel` (CtrProps.v). contract sources modelled method by method (the compiler is not modelled)
* **C49 A node's own block passes its own time checks** - proved. `C49_own_time_diff` (ChainProps.v), `C49_own_time_stamp` (ChainProps.v). the floating-point estimate is an arbitrary integer
* **C50 Line points decode to the pair they encode** - proved. `C50_line_point` (PosProps.v), `C50_onto` (PosProps.v), `C50_truncated` (PosProps.v)
* **C51 Contract execution has no undefined behaviour** - partial. `C51_program_partial` (VmSafeProps.v), `C51_instruction_partial` (VmSafeProps.v), `C51_defined_behaviour_refuted` (ExecCases.v). False of the code: two programs that use a destroyed object. Proved for programs of the instructions that do not copy, move or fetch containers, and for each such instruction in any state.
* **C52 Erasing a map entry is permanent** - partial. `C52_loaded_entries_partial` (VmEraseProps.v), `C52_erase_is_permanent_refuted` (ExecCases.v). False of the code: overwrite then erase of a stored entry brings the stored value back. Proved for entries that the engine took from storage, for every program.
* **C53 Return values of remote calls are delivered** - partial. `C53_const_methods_partial` (VmCallProps.v), `C53_return_value_refuted` (ExecCases.v). False of the code for non-const methods. Proved for const methods and values that are not references or containers.
* **C54 Failed remote calls are paid for** - partial. `C54_completed_calls_partial` (VmCallProps.v), `C54_gas_of_failed_call_refuted` (ExecCases.v). False of the code: gas of a child that throws is not charged. Proved for calls that return: all gas of the called contract is charged.
* **C55 Stack accesses stay within the stack** - partial. `C55_stack_partial` (VmSafeProps.v), `C55_stack_bounds_refuted` (ExecCases.v). False of the code: clear_stack runs past its end. Proved: stack operands stay in the stack, and RET is defined while the stack pointer of the frame is inside it.
* **C56 A call touches only the contracts it locked** - proved. `C56_other_contracts_untouched` (ExecProps.v), `C56_only_executables_act` (ExecProps.v)
* **C57 Read calls do not modify the chain state** - proved. `C57_api_call_changes_nothing` (ExecProps.v)
* **C58 Contracts do not share storage** - partial. `C58_separate_storage_partial` (StorProps.v), `C58_refuted` (StorProps.v). The database keys storage by the first 20 bytes of the contract address only: refuted for two contracts sharing these, proved for all others.
* **C59 Funds are only taken with the owner's consent** - proved. `C59_inputs_are_authorised` (TxProps.v). the answers of PubKey/MultiSig/contract validation are parameters here; see C34
* **C60 Validating a transaction always ends** - proved. `C60_validation_ends` (TxProps.v)
* **C61 Validation with a deadline ends** - partial. `C61_deadline_partial` (ParProps.v), `C61_deadline_refuted` (ParProps.v). refuted: a task that waits for one that was skipped waits forever; it is proved that this is the only way to get stuck
* **C62 Pending entries in the history of addresses** - partial. `C62_pending_history` (PoolProps.v), `C62_shown_once_partial` (PoolProps.v), `C62_shown_once_refuted` (PoolProps.v). exactly the right entries are shown; once for one address; refuted: shown several times when several of the addresses take part in the transaction
* **C63 Purging the transaction pool** - proved. `C63_purge` (PoolProps.v), `C63_nothing_removed` (PoolProps.v), `C63_cheapest_removed` (PoolProps.v). the balance is cut to 64 bits by the code, which matters for C63_nothing_removed and C63_cheapest_removed only
* **C64 NFTs are minted at most once** - proved. `C64_nft_once` (CtrProps.v), `C64_template` (CtrProps.v). contract sources modelled method by method (the compiler is not modelled)
* **C65 A virtual plot pays only its owner and burns a tenth** - proved. `C65_virtual_plot` (CtrProps.v). amounts below 2^128, the range of a payment
* **C66 Only blocks that are deep enough become final** - partial. `C66_final_partial` (ForkProps.v), `C66_final_refuted` (ForkProps.v). Proved while no block claims to follow the root directly without doing so. Refuted: a block with the height next to the root that was built on the peak makes the peak the root at once (Node.cpp fork_to, 'root = new_root').
* **C67 The wallet does not commit a coin twice** - proved. `C67_spendable` (WalletProps.v), `C67_no_double` (WalletProps.v). update_cache, update_from, reset_cache with complete. Wallet::reserve and release are stubs in the code, so nothing is ever reserved.
* **C68 All tables of the database come back at one version** - proved. `C68_one_version` (MdbProps.v), `C68_snapshot` (MdbProps.v). DataBase::commit, revert, min_version, recover over any number of tables of C01-C06; each table may have got arbitrarily far when the process dies. Finalisation of a block merge is one effect, see C06.
* **C69 A restart loses nothing that was committed** - partial. `C69_committed_version_partial` (MdbProps.v), `C69_refuted` (MdbProps.v). False of the code: Table::flush of a table with nothing to write truncates its log and leaves the record of the version in the buffer; a process death before the next commit then takes the whole database back to the last block of that table, or to version 0. Proved when every table flushed by the last commit had been written to at the version before.
* **C70 A verified proof of time is the work it claims** - proved. `C70_verdict` (VdfProps.v), `C70_ends` (VdfProps.v), `C70_work` (VdfProps.v). verify_vdf and verify_vdf_cpu, for every schedule of the chunks and both ways of computing the lanes; the hash function is arbitrary. Proofs with fewer than 2^32 segments. The OpenCL path is not modelled.
* **C71 The VDF output of an accepted block is sequential work since the first block** - proved. `C71_block` (VdfProps.v), `C71_chain` (VdfProps.v). for every sequence of processed proofs and finalised blocks; hash functions, header store and length of an interval are arbitrary.
* **C72 Whatever proofs of time arrive, a node goes on from those that are right** - partial. `C72_own_block_partial` (VdfProps.v), `C72_progress_partial` (VdfProps.v), `C72_refuted_skipped` (VdfProps.v), `C72_refuted_displaced` (VdfProps.v). False of the code: nothing compares the start a proof names with the position of its input. Proved when every proof names the position of its input and no two proofs with different input or infusion end in the same output.
* **C73 What a timelord publishes is a valid proof for an interval it was asked for** - partial. `C73_valid_partial` (TimelordProps.v), `C73_served` (TimelordProps.v), `C73_has_point` (TimelordProps.v), `C73_refuted_race` (TimelordProps.v), `C73_refuted_overlap` (TimelordProps.v), `C73_refuted_stop` (TimelordProps.v). False of the code in three ways: an update between a changed request and the next round of the VDF thread, a changed interval length, and stop_vdf with requests pending. Proved for every other interleaving (at most 1000 infusions after the start of a waiting request).
* **C74 A reorganisation leaves no trace** - proved. `C74_alive` (ReorgProps.v), `C74_chain` (ReorgProps.v), `C74_no_trace` (ReorgProps.v), `C74_heights` (ReorgProps.v), `C74_restart` (ReorgProps.v). for arbitrary validity and effects of blocks and an abstract versioned table (C01-C03, C68). A crash may come at every write of an operation. tx_index (file offsets), the order of farmers with equal counts and errors of the file system are left out.
* **C75 A reorganisation that fails leaves the node on the chain it was on** - partial. `C75_partial` (ReorgProps.v), `C75_deep_partial` (ReorgProps.v), `C75_refuted` (ReorgProps.v), `C75_refuted_height` (ReorgProps.v). False of the code for forks from below the root: if a block below the new root is invalid and another one there was applied before it, the node stays on the applied one, below its root, and no switch from that root works any more (C75_refuted); and a block that claims a height it does not have can take the node back to an old block (C75_refuted_height). Proved for every fork that descends from the root when no block lies about its height; for the other forks it is proved that these are the only ends.
* **C76 The blocks for a height come from enough peers** - partial. `C76_valid` (FetchProps.v), `C76_partial` (FetchProps.v), `C76_enough_partial` (FetchProps.v), `C76_refuted_twice` (FetchProps.v), `C76_refuted_two` (FetchProps.v), `C76_refuted_forged` (FetchProps.v). False of the code: a reply is matched by its number alone, not by the peer it comes from, and a peer may be counted as failed and as succeeded. Proved with fewer than half of min_sync_peers dishonest peers and replies only from those that were asked; the three refutations show that neither can be dropped.
* **C77 A fetched block is the one that was asked for** - partial. `C77_source` (FetchProps.v), `C77_none` (FetchProps.v), `C77_none_start` (FetchProps.v), `C77_partial` (FetchProps.v), `C77_refuted` (FetchProps.v). False of the code: the hash of the block is never compared with the one asked for. Proved that the block came in reply to a request, and that nothing is returned only when every synced peer replied without a block.
* **C78 A message is passed on once, and only when it may be** - proved. `C78_once` (RelayProps.v), `C78_gap` (RelayProps.v), `C78_at_most_once` (RelayProps.v), `C78_valid` (RelayProps.v), `C78_early` (RelayProps.v), `C78_sent` (RelayProps.v), `C78_back` (RelayProps.v), `C78_points` (RelayProps.v). relay_msg_hash, receive_msg_hash, all handlers of published and received messages, the queues of peers, trimming; the shuffle and the decisions about unreliable messages are arbitrary. Proofs of time are also sent to every new connection, which C78_sent does not count.
* **C79 Own messages reach every connected peer** - partial. `C79_partial` (RelayProps.v), `C79_refuted` (RelayProps.v). False of the code: the queue of a peer is a map from the time in microseconds, and emplace drops a second message for the same time. Proved when nothing waits in the queue for one of the times the message is spread over.
* **C80 A mistyped address is never taken for another one** - proved. `C80_three` (AddrErrProps.v), `C80_four` (AddrErrProps.v), `C80_swapped` (AddrErrProps.v). addr_t::to_string and from_string; the bech32 library is not part of the tree and is modelled after BIP-350. That four errors are always found is shown by linearity and an exhaustive check of the checksums of single and double errors, done by the kernel.
* **C81 An address has one string** - partial. `C81_partial` (AddrErrProps.v), `C81_refuted_network` (AddrErrProps.v), `C81_refuted_padding` (AddrErrProps.v). False of the code: from_string compares neither the prefix with "mmx" nor the four bits after the address with zero, so addresses of other networks ("xch1...") are accepted, and each address has sixteen strings. Proved for strings with the right prefix and no such bits.
* **C82 Contract source is read in the customary order** - partial. `C82_customary_order_partial` (CompProps.v), `C82_bits_and_truth_refuted` (CompProps.v), `C82_chained_assignment_refuted` (CompProps.v). False of the code where an operator on bits stands next to one on truth values (& ranks with &&, ^ with ^^, | with ||), and for a = b = c, which is read as (a = b) = c. Proved for every program of the modelled fragment without such mixtures.
* **C83 A compiled contract does what its source says** - partial. `C83_compiled_contract_does_what_it_says_partial` (CompProps.v), `C83_missing_return_refuted` (CompProps.v), `C83_constant_changed_refuted` (CompProps.v), `C83_default_argument_refuted` (CompProps.v), `C83_operand_order_refuted` (CompProps.v), `C83_assert_message_refuted` (CompProps.v). Proved end to end (compiler, linker, loader, machine) for programs with numbers, truth values and null, local variables, constants, all control flow, all operators, min, max, assert and calls. Missing: static variables, arrays, objects, strings, other built-in functions, calls by transactions. False of the code for functions that end in a return inside of an if, for constants changed by compound assignment, for default values of arguments in calls from outside, for operands changed while an expression is evaluated, and for assert with a computed message.
* **C84 A proof of space is accepted if and only if it is one** - proved. `C84_accepted_proofs_are_good` (SpaceProps.v), `C84_good_proofs_are_accepted` (SpaceProps.v)
* **C85 All nodes agree about a proof of space** - proved. `C85_nodes_agree` (SpaceProps.v). collisions of the data of two proofs made of the same values are excluded by hypothesis, as in the statement
* **C86 What a harvester publishes is accepted by the nodes** - proved. `C86_published_proofs_are_accepted` (SpaceProps.v), `C86_long_names_are_not_heard` (SpaceProps.v). a harvester whose name has 1024 characters or more is the exception: its responses are invalid
* **C87 A harvester finds every winning proof in its plots** - partial. `C87_winning_proofs_are_published_partial` (SpaceProps.v), `C87_missed_proof_refuted` (SpaceProps.v). false in general; proved if no park but the first begins with a value asked for, all parks can be read and the search ends
* **C88 The starting values of a plot of size k are below 2^k** - partial. `C88_published_values_partial` (SpaceProps.v), `C88_large_values_refuted` (SpaceProps.v). false for the check of the node; proved for what a harvester publishes
* **C89 A node does not split its votes** - partial. `C89_votes_do_not_split_partial` (FarmProps.v), `C89_same_height_refuted` (FarmProps.v), `C89_restart_refuted` (FarmProps.v). Proved for blocks with the same parent and a node that is not restarted. False of the code otherwise: what was voted for is remembered by parent and only in memory, so after a reorganisation of two blocks, or a restart, the node votes at once for another block at the same height.
* **C90 A node votes only for blocks from the best proof it knows** - partial. `C90_votes_are_for_the_best_proof_partial` (FarmProps.v), `C90_weaker_proof_refuted` (FarmProps.v). Proved for votes that do not replace an earlier vote for another block with the same parent. False of the code for those: vote again for the block of the new main chain is not conditional on its proof.
* **C91 A node makes one block per proof** - partial. `C91_one_block_per_proof_partial` (FarmProps.v), `C91_restart_refuted` (FarmProps.v). Proved for a node that is not restarted. The list of used proofs is in memory only: after a restart a second block is made and signed from the same proof.
* **C92 Own blocks carry the best proofs, in an order every node accepts** - proved. `C92_own_blocks_have_the_best_proofs` (FarmProps.v), `C92_own_blocks_pass_the_check` (FarmProps.v), `C92_order_of_arrival` (FarmProps.v). for every history of a node from its start, any hash function with 32 bytes.
* **C93 A node votes only with its own farmers, and only where they are validators** - proved. `C93_votes_are_by_own_validators` (FarmCheckProps.v). for every history of a node from its start; at most 2^32 - 1 validators.
* **C94 Own blocks contain verified proofs only, and a node that is syncing stays quiet** - proved. `C94_own_blocks_have_verified_proofs` (FarmCheckProps.v), `C94_nothing_while_syncing` (FarmCheckProps.v). for every history of a node from its start; the check of a proof is that of C84 and arbitrary here.
* **C95 Tokens of a fixed price liquid token can be sold back at the stated value** - partial. `C95_tokens_can_be_sold_back_partial` (SaleProps.v), `C95_owner_part` (SaleProps.v), `C95_recover_refuted` (SaleProps.v). Proved for histories without recover() of the currency of the sale. The owner can take the whole backing with recover(amount, currency): the argument hides the variable of the same name, so that no check is possible; C95_recover_refuted.
* **C96 Sold tokens are minted to the buyer only, at the price** - proved. `C96_minted_at_the_price` (SaleProps.v), `C96_liquid_minted_at_the_price` (SaleProps.v), `C96_only_the_owner_is_paid` (SaleProps.v). for calls with an engine of version 1 or later, which detects overflow of products; version 0 may mint fewer tokens.
* **C97 The horse race contract can always pay, and its price grows with the pot** - proved. `C97_price_is_monotone` (SaleProps.v), `C97_pots_are_there` (SaleProps.v), `C97_opening` (SaleProps.v). the sum of what the contract ever holds below 2^128, as for every balance.
* **C98 Round trips in the horse race do not pay** - proved. `C98_round_trips_do_not_pay` (SaleProps.v), `C98_pot_of_a_horse` (SaleProps.v). proof by a rational potential of the pot.
* **C99 get_history is complete and exact** - partial. `C99_history_is_complete_partial` (HistProps.v), `C99_nothing_else_partial` (HistProps.v), `C99_limit` (HistProps.v), `C99_empty_range_refuted` (HistProps.v). Proved for since <= until; false otherwise: the step that completes the last block returns the payments of height until. Completeness without max_search. Fewer than 2^31 rows. Entries of the pool are an arbitrary list (C62) that the filter is not applied to.
* **C100 get_history with a memo is complete and exact** - partial. `C100_memo_history_partial` (HistProps.v), `C100_nothing_else` (HistProps.v), `C100_limit_refuted` (HistProps.v). Proved without limit, for hashes without collisions. With a limit the last block is cut when it has more than 100 payments: get_history_memo lacks the step that completes it.
* **C101 The history of an address explains its balance** - proved. `C101_history_adds_up` (HistProps.v), `C101_logs_of_chains` (HistProps.v). chains as in C30; fewer than 2^31 rows; also shows that the logs of chains satisfy what C99 and C100 assume.
* **C102 The reported liquidity of a user is what the swaps have for the user** - partial. `C102_liquidity_partial` (LiqProps.v), `C102_switch_refuted` (LiqProps.v), `C102_no_argument_refuted` (LiqProps.v), `C102_same_transaction_refuted` (LiqProps.v), `C102_twice_refuted` (LiqProps.v). Proved for distinct addresses whose own calls are operations that name the swap, are not switch_pool, and give rem_all_liquid its optional argument; others may do anything. False in each of the other cases: after switch_pool the report is wrong and can wrap below zero; rem_all_liquid() without argument is not noticed; liquidity added in the transaction that deploys the swap makes the query throw for ever; addresses given twice count twice.
* **C103 Queries of offers show the offers that are there, as they are** - partial. `C103_recent_offers` (OfqProps.v), `C103_recent_offers_for_partial` (OfqProps.v), `C103_offers_since` (OfqProps.v), `C103_offers_by` (OfqProps.v), `C103_mark_refuted` (OfqProps.v), `C103_min_bid_refuted` (OfqProps.v), `C103_one_offer_blocks_refuted` (OfqProps.v). Proved when all offers can be presented (price and the amount that buys all of it fit 128 bits), and for searches by currency when hashes do not collide and the currency does not begin or end with the mark. False otherwise: one offer that cannot be presented makes the queries throw for everybody; whatever the hash, currencies that contain the mark ANY at one end are confused; min_bid is ignored when no currency is given.
* **C104 The trade history is that of the trades that happened** - partial. `C104_trade_history_partial` (OfqProps.v), `C104_trade_history_for_partial` (OfqProps.v), `C104_accept_refuted` (OfqProps.v), `C104_nested_refuted` (OfqProps.v), `C104_same_block_refuted` (OfqProps.v), `C104_large_refuted` (OfqProps.v). Proved for trades made by operations of transactions, whose amounts fit; amounts are exact for trade, and for accept only an upper bound. False otherwise: accept is reported with all that was paid in although the rest is returned; trades by other contracts are missing; a trade with an offer of the same block is filed under the native currency; one acceptance with a large payment makes the queries throw.
* **C105 The ranking of farmers counts the blocks of the chain** - partial. `C105_ranking_partial` (FrkProps.v), `C105_limit` (FrkProps.v), `C105_restart` (FrkProps.v), `C105_zero_refuted` (FrkProps.v), `C105_failure_refuted` (FrkProps.v). Proved when no block fails between the update of the ranking and the end of apply; after a restart it is right whatever happened. False otherwise: a block that cannot be written is counted (and again when it is applied later); a farmer whose blocks were all reverted stays with count 0.
* **C106 The blocks and rewards reported to a farmer are those in the chain** - partial. `C106_blocks_partial` (FrkProps.v), `C106_summary_partial` (FrkProps.v), `C106_order` (FrkProps.v), `C106_reward_refuted` (FrkProps.v), `C106_twice_refuted` (FrkProps.v). Proved for distinct keys and, for sums, rewards below 2^32. Rewards of 2^32 or more are cut to 32 bits in the table; a key given twice counts twice.
* **C107 The estimate of a swap trade is exact** - proved. `C107_estimate` (EstProps.v), `C107_wallet` (EstProps.v). For balances below 2^128, which the ledger guarantees.
* **C108 Liquidity is worth what the node says** - proved. `C108_liquidity` (EstProps.v), `C108_wallet` (EstProps.v). For balances below 2^128.
* **C109 The sums told about a swap are those of its pools and trades** - proved. `C109_info` (EstProps.v), `C109_stored` (EstProps.v), `C109_volume` (EstProps.v). Reserves and fees for balances below 2^128; the volume modulo 2^128 as the code computes it.
* **C110 Offers made and accepted with the wallet keep their terms** - proved. `C110_price` (WofProps.v), `C110_accept` (WofProps.v), `C110_ask` (WofProps.v), `C110_possible` (WofProps.v), `C110_asked_refuted` (WofProps.v). For balances below 2^128. C110_possible says which offers can be made at all; C110_asked_refuted that the amount asked does not always buy the whole offer: with extreme prices it costs up to almost twice as much.
* **C111 Balances told by the node are the balances of the chain** - partial. `C111_balance` (BalProps.v), `C111_total` (BalProps.v), `C111_totals` (BalProps.v), `C111_never_more` (BalProps.v), `C111_all` (BalProps.v), `C111_contract` (BalProps.v), `C111_one` (BalProps.v), `C111_limit_refuted` (BalProps.v). Proved as stated, for sums below 2^128 and currencies other than the address that is all ones (whose row a query without list never reads). That a query with the default limit of 100 is complete for at most 100 currencies with funds is refuted by C111_limit_refuted: rows with a balance of zero count.
* **C112 The balances shown by the wallet add up** - partial. `C112_wallet` (BalProps.v), `C112_one` (BalProps.v), `C112_chain` (BalProps.v), `C112_total_refuted` (BalProps.v). For sums below 2^128. That the total never exceeds what there is fails (C112_total_refuted) when the wallet signed a transaction whose fee another address pays; C112_wallet has the condition.
* **C113 Lists of contracts and the history of a contract are those of the chain** - partial. `C113_deployed` (LstProps.v), `C113_owned` (LstProps.v), `C113_history` (LstProps.v), `C113_owner_refuted` (LstProps.v). Deployed contracts and histories as stated, for heights below 2^32-1 and less than 2^32 rows per block. Ownership holds only for the owner that a contract was deployed with: a plot NFT that was transferred stays with the old owner (C113_owner_refuted). Calls that contracts make of each other are not in the history.
* **C114 A node that says it is synced has asked for every block** - partial. `C114_answered` (SynProps.v), `C114_blocks` (SynProps.v), `C114_confirmed` (SynProps.v), `C114_spaced` (SynProps.v), `C114_commit` (SynProps.v), `C114_no_genesis` (SynProps.v), `C114_progress` (SynProps.v), `C114_again` (SynProps.v), `C114_says_so` (SynProps.v), `C114_lost_refuted` (SynProps.v). Every height below the end is answered, and answered with blocks, except heights whose last request failed and was not repeated: when that failure is the last thing outstanding the engine takes the end for reached and never asks for the height again (C114_lost_refuted). Answers with blocks: when no request was outstanding as each search for the end began. What the blocks are, and fork choice, are left to the environment of this model (see FrkModel).
* **C115 A pool accepts exactly sound partials and gets the blocks of the plots it pays for** - partial. `C115_accept` (PolProps.v), `C115_binding` (PolProps.v), `C115_credit` (PolProps.v), `C115_reward` (PolProps.v), `C115_horizon` (PolProps.v), `C115_honest` (PolProps.v), `C115_no_key` (PolProps.v), `C115_info` (PolProps.v), `C115_unlocked_refuted` (PolProps.v), `C115_split_refuted` (PolProps.v), `C115_given_away` (PolProps.v). The pool gets the blocks only if the plot NFT is not its own: an unlocked plot NFT that was transferred to the pool target passes verify_partial although its blocks may pay anybody (C115_unlocked_refuted, C115_given_away). The signature covers everything but the place where pool_url ends and harvester begins (C115_split_refuted). Hash, signatures, find_challenge and verify_proof (C84) are parameters; contracts other than plot NFTs with a method mmx_reward_target are not modelled.
* **C116 The vote on the block reward follows the medians of the prices** - partial. `C116_median` (CtlProps.v), `C116_vote` (CtlProps.v), `C116_majority` (CtlProps.v), `C116_none` (CtlProps.v), `C116_none_mmx` (CtlProps.v), `C116_once` (CtlProps.v), `C116_asks` (CtlProps.v), `C116_failed` (CtlProps.v), `C116_range` (CtlProps.v), `C116_swap` (CtlProps.v), `C116_fetched` (CtlProps.v), `C116_hourly` (CtlProps.v), `C116_stale_refuted` (CtlProps.v). The vote does not go back to 0 while the sources cannot be reached: it stays what it was for any time (C116_stale_refuted). With two sources one can turn the vote, and the check of bid and ask is one-sided (C116_weak_refuted). Prices are rationals, not doubles; parsing of JSON, curl and the file system are parameters (contents and ages of files).
* **C117 What the node tells about the storage of a contract is what it was at that height** - partial. `C117_var` (RdsProps.v), `C117_entry` (RdsProps.v), `C117_dump` (RdsProps.v), `C117_entries` (RdsProps.v), `C117_array` (RdsProps.v), `C117_field` (RdsProps.v), `C117_fields_now` (RdsProps.v), `C117_by_key` (RdsProps.v), `C117_map` (RdsProps.v), `C117_map_limit_refuted` (RdsProps.v), `C117_erased_refuted` (RdsProps.v), `C117_height_refuted` (RdsProps.v). read_storage ignores the height and always tells the present (C117_height_refuted; what it tells is C117_fields_now). Erased elements of arrays and maps are in the answers as null (C117_erased_refuted), so C117_array needs that nothing was taken away. read_storage_map throws for maps with more stored keys than one transaction has gas for (C117_map_limit_refuted), and reads the keys as they are now. Contracts are told apart by the first 20 bytes of their addresses (hypothesis distinct_prefix, as in C25). Tables are taken as C01 proves them.
* **C118 A locked wallet signs nothing without the passphrase, and is locked again** - proved. `C118_locked` (SgnProps.v), `C118_unlock` (SgnProps.v), `C118_states` (SgnProps.v), `C118_restored` (SgnProps.v), `C118_timeout` (SgnProps.v). Accounts have at least one address. Where an account may be unlocked twice it is assumed that no two passphrases give the same first address but other keys (no_twins). The derivation of keys, finger prints and signatures are arbitrary functions. A timer that is due goes off before the next request.
* **C119 What the wallet signs and sends is what was asked for, and the node accepts the signatures** - partial. `C119_accepted` (SgnProps.v), `C119_valid` (SgnProps.v), `C119_is_signed` (SgnProps.v), `C119_fee` (SgnProps.v), `C119_request` (SgnProps.v), `C119_sender_refuted` (SgnProps.v), `C119_again_refuted` (SgnProps.v), `C119_gas_refuted` (SgnProps.v), `C119_wrap_refuted` (SgnProps.v). For transactions without signatures: completing a transaction that has some keeps them although the id changes (C119_again_refuted). is_signed does not look at the sender and the users of operations, so that transactions without their signatures are sent, and refused (C119_sender_refuted). The limit on the fee does not include the signatures (C119_gas_refuted) and has 32 bits (C119_wrap_refuted), so C119_fee needs enough gas and fees below 2^32. The choice of inputs is arbitrary here (modelled for C43). At most 65535 signatures.
* **C120 A peer counts as a node only with a signature of its key, and a banned address stays out** - partial. `C120_identity` (PrsProps.v), `C120_unique` (PrsProps.v), `C120_answer` (PrsProps.v), `C120_answers` (PrsProps.v), `C120_synced` (PrsProps.v), `C120_synced_now` (PrsProps.v), `C120_books` (PrsProps.v), `C120_kick` (PrsProps.v), `C120_blocked` (PrsProps.v), `C120_relay_refuted` (PrsProps.v), `C120_kick_refuted` (PrsProps.v). A signature for the challenge does not mean that the peer is the node: routers sign what anybody asks them to sign, so that challenges can be handed on (C120_relay_refuted). Kicking an address that is not connected does nothing (C120_kick_refuted). Bans hold as long as there are less than a million of them: then the first is dropped. Names resolve to the same address all the time; the TCP server gives out each client number once.
* **C121 Whom the node connects to, keeps and tells others of** - partial. `C121_connect` (PrsProps.v), `C121_own` (PrsProps.v), `C121_dials` (PrsProps.v), `C121_excess` (PrsProps.v), `C121_timeout` (PrsProps.v), `C121_tell` (PrsProps.v), `C121_private_refuted` (PrsProps.v), `C121_twice_refuted` (PrsProps.v). Addresses in 172.16.0.0/12 are not taken for local (C121_private_refuted). A host may be dialled by its name and its address at the same time (C121_twice_refuted). std::shuffle is an arbitrary function that permutes.
* **C122 A farmer reports the space of its harvesters, each once, and counts each partial once** - partial. `C122_totals` (FrmProps.v), `C122_pools` (FrmProps.v), `C122_partials` (FrmProps.v), `C122_address` (FrmProps.v), `C122_restart_refuted` (FrmProps.v), `C122_pool_refuted` (FrmProps.v). A harvester that starts again draws another id and counts twice until its old report is too old (C122_restart_refuted). After a change of the pool the difficulty of the old one is reported until the new one answers (C122_pool_refuted). Sums are modulo 2^64 and 2^32. Not modelled: the list of directories and response times.
* **C123 A farmer signs blocks and votes with the key they name and changes nothing it should not** - partial. `C123_block` (FrmProps.v), `C123_vote` (FrmProps.v), `C123_keys` (FrmProps.v), `C123_address_refuted` (FrmProps.v). A farmer without a reward address signs blocks with a reward and no address, which no node accepts (C123_address_refuted); otherwise what it signs passes the checks of hash, signature and address. Keys are never forgotten, also when the wallet no longer has them (C123_keys).
* **C124 Transactions are found by id exactly if they are in the chain** - proved. `C124_chain` (QtxProps.v), `C124_transaction` (QtxProps.v), `C124_pending` (QtxProps.v), `C124_block` (QtxProps.v), `C124_ids` (QtxProps.v), `C124_stays` (QtxProps.v). Offsets count records instead of bytes. What was flushed to the file stays there (no faults of the disk); different blocks have different hashes; the versions of the database are given back by revert (C01-C03, C68).
* **C125 Accounts of the wallet keep their keys and their numbers** - partial. `C125_keys` (AccProps.v), `C125_export` (AccProps.v), `C125_import` (AccProps.v), `C125_create` (AccProps.v), `C125_remove` (AccProps.v), `C125_restart` (AccProps.v), `C125_remove_refuted` (AccProps.v), `C125_failed_refuted` (AccProps.v), `C125_count_refuted` (AccProps.v). The restart is proved for histories in which no attempt to create an account fails, no account is created hidden, the number of addresses is set for listed accounts only, and no restart comes while the last account is a removed one; without these it is false of the code (the refuted theorems; findings 86-88). Writes of files succeed or fail as a whole.
* **C126 The reward for the VDF goes to the timelord that did most, once per interval** - partial. `C126_winner` (VrwProps.v), `C126_paid` (VrwProps.v), `C126_total` (VrwProps.v), `C126_make` (VrwProps.v), `C126_accept` (VrwProps.v), `C126_points` (VrwProps.v), `C126_named_refuted` (VrwProps.v). That the addresses named by a block are those of its points holds for blocks made by the node (C126_make) and is not checked for others: C126_named_refuted, finding 89. Fewer than 2^32 addresses are named per interval; the interval is at least 2 for the sum.
* **C127 Signatures of several parties are merged without loss** - partial. `C127_merge` (MsgProps.v), `C127_parties` (MsgProps.v), `C127_operations_refuted` (MsgProps.v), `C127_stray_refuted` (MsgProps.v). For inputs whose solution is there or is NO_SOLUTION (others: C127_stray_refuted), below 65535 solutions. Signatures of operations are not merged nor asked for by is_signed: C127_operations_refuted (findings 90, 91).
* **C128 The list of swaps is that of the chain** - partial. `C128_found` (SwlProps.v), `C128_places` (SwlProps.v), `C128_listed` (SwlProps.v), `C128_best_refuted` (SwlProps.v). With a limit the swap with most liquidity may be missing: C128_best_refuted, finding 92. The order without token and currency (by yield, floating point) is taken as an order by some number. Keys of the index (hashes) are different for different queries.
* **C129 Tokens added to a wallet stay shown** - partial. `C129_kept` (WtlProps.v), `C129_shown` (WtlProps.v), `C129_removed` (WtlProps.v), `C129_listed` (WtlProps.v), `C129_removed_refuted` (WtlProps.v). A removed token that is also in the default list is shown again after a restart: C129_removed_refuted, finding 93. A stop within the write of the file, and the reading of the key with + by VNX, are not modelled.
* **C130 A block pays the farmer, the timelord and the project their shares and nobody else** - proved. `C130_paid` (PayProps.v), `C130_fees` (PayProps.v), `C130_claim` (PayProps.v). On the model of blocks of C29 and C30. Balances stay below 2^128; sums of fees are not wrapped. Who may be named for the VDF reward is C126.

130 properties: 69 proved, 61 partial.

## 6. Findings about the code

Behaviour found while modelling, in terms of the code; `_refuted` theorems prove the ones marked with their property.

1. (C05) A commit that flushes truncates the log together with its commit record, so after a restart the table reports the version of the newest
   block instead of the committed one when the last commits had no writes.
2. (C06) When a process dies in a merge after removing some of its sources, the next start drops only the first leftover source: `prev max` is taken from the
   block that was dropped. With two or more leftovers a duplicate stays; merging duplicates overwrites a cursor with equal (key, version), and data is lost later.
3. (C08) After moving backward, `next()` misses keys stored in a block or in memory that lacks the current key. `seek_next(key)` has the same flaw.
   `seek_for_prev` beyond the last key stays invalid. `find_greater_equal` for pairs reads the value into the pair instead of its second member.
4. (C13) Arrays compare by address only.
5. (C16) Symbols of 24 and above and offsets in the last bits of a word do not decode.
6. (C22) Multiplication of version 0 transactions wraps.
7. (C23) `POP_BACK` shortens the constant deposit array; `erase_entry`/`verase` do not check that the container is constant.
8. (C30) The reported native supply is overstated after a block that burns more than it creates (the change is clamped at zero).
9. (C31) A transaction executed by the block producer can fail re-validation: the io cost does not fit, the fee limit is rounded twice, or a transaction executed before it is left out.
10. (C38) With roots of other forks in the tree, `replaces` is not transitive and the order of arrival decides.
11. (C40) A challenge given out further ahead than the delay changes when a space fork falls in between.
12. (C42) A first band above one, or a transaction larger than a band, makes a produced block fail its own check.
13. (C43) `complete()` leaves surplus inputs unbalanced; inputs of own addresses that are there before are not counted against the balance; outputs of 2^128 and more wrap.
    `Wallet::reserve` and `release` are stubs.
14. (C46) `rem_liquid` with `dry_run` takes liquidity out of the pool, even while locked, and pays nothing. `this.user` null can add liquidity that nobody can withdraw.
15. (C51, C55) `COPY` of something the destination refers to and `POP_BACK` into a variable that refers to the array use destroyed objects; `clear_stack` runs past its end.
16. (C52) An entry that is overwritten without having been loaded and then erased comes back: the erase is not marked for commit.
17. (C53) The return value of a non-const method is cleared by the commit of the called engine before it is copied.
18. (C54) The gas of a called contract that throws is not charged.
19. (C58) Contract storage is keyed by the first 20 bytes of the 32-byte address.
20. (C61) A validation task that is skipped because of the deadline never signals the tasks that wait for it.
21. (C62) The pending history lists an entry once per address involved.
22. (C66) `fork_to` moves the root when the height of a block is next to the root's although its parent is not the root.
23. Other observations: `is_payable` is not enforced by `Node::execute`; flags and solution index of an input are not part of the transaction id; conversion of strings
    to integers strips "0b" even with base 16; reentrant calls see storage as of the start of the outer call; `StorageRAM` keeps the reference counter of an entry and
    `StorageDB` drops it; `get_all_depends` checks the depth only after recursing; an exception before the inner `try` of `Node::execute` charges no gas;
    a smart wallet with a start in the past allows all missed payments at once; purging the pool truncates balances to 64 bits.
24. (C69) `Table::flush` with nothing in memory truncates the log and leaves the new `reset` record in the stream buffer. If the process dies before the next commit, the table
    comes back at the version of its last block (0 if it never had one), and `DataBase::recover` reverts **all** tables to it; at 0 `Node::reset` then also empties `blocks.dat`.
25. (C72) Nothing compares the `start` of a proof of time with the position of its input. A proof that takes the output of the peak as input, infuses the block that is due one
    interval later and names a start one interval later is accepted; `find_next_vdf_points` takes it for the newest point, the node builds its block on it alone and then does not
    accept that block itself. And a copy of a right proof with another start (signed by anyone) is stored at the wrong place, after which the right one is dropped as already verified.
26. (C73) `TimeLord::handle` with another block for an interval already passed sets `is_reset`, but a queued `update` may run before the VDF thread takes it up, and publishes the old
    history with the new block. A changed request with a shorter interval leaves the longer one pending with the block of before. `stop_vdf` clears the infusions, not the requests.
27. (C75) A deep fork (from below the root) whose blocks below the new root are applied one by one: if the first is valid and a later one is not, the loop that restores the old chain
    never meets the current state, walks down to the genesis block and throws out of the handler. `reset()` is not called, the root stays the old one while the state is below it,
    and every later `fork_to` from that root throws "disconnected fork" until another deep fork or a restart. Storing two cheap blocks at old heights is enough to set it up,
    but the fork must also be chosen by `find_best_fork`.
28. (C75) No check before `fork_to` compares the height of a block with that of the block it names as previous. A block at height root + 1 that names an old stored block makes
    `fork_to` revert to that old block as new root; validation then fails, going back throws "disconnected fork", and the node stays at the old block.
29. (C74) After a revert the count of a farmer may stay in `farmer_ranking` with zero blocks; the order of farmers with equal counts depends on the history.
30. (C76) `Router::process` looks a reply up by `ret->id` only; ids are handed out in sequence to all peers. Any connected peer can reply in place of the others, for example that there is
    no block at a height, which ends the synchronisation there (`Node::sync_result` takes an empty result as the peak).
31. (C76) A peer can be in `failed` and in `succeeded`, and both are counted: with min_sync_peers = 2 (the default) a single peer that says it is not synced and then that it is gets asked twice,
    replies "none" to one request and with a block of its own to the other, and the job ends with its block only.
32. (C77) `fetch_block` hands over whatever block a peer returns; neither its hash nor `is_valid` is checked in `Router::process`.
33. (C79) `Router::send_to` uses `send_queue.emplace(now + interval * i, item)` on a `std::map` keyed by microseconds. If an entry for that time exists the new message is dropped for that peer,
    although its hash is marked as relayed: a reliable message of our own (a transaction, block or proof) never reaches that peer.
34. (C81) `addr_t::from_string` does not look at `res.hrp`: any Bech32m string with 52 groups is taken as an address, for example every Chia address ("xch1..."). Funds sent to it are lost.
35. (C81) It does not check the last four bits of the 52nd group either: sixteen strings are accepted for each address, all different from what `to_string` writes.
36. (C83) A function gets a final return only if the last instruction written is not one. A function that ends in `if(c) { return x; }` has none after the if: when c is false execution runs on into the
    next function in alphabetical order (also one that is not public), or past the end of the code. None of the contracts in `src/contract/` ends like this.
37. (C83) `assert(c, message)` jumps over two instructions; if the message is computed, the jump leads into the code of the message and the assert fails although c is true. The target is also right only
    if the compiler evaluates the arguments of `emplace_back` from right to left, which C++ does not promise.
38. (C83) `const x = f(); x += 1;` changes x: compound assignment does not look at the flag. `x = 1` and `x++` are refused.
39. (C83) Default values of arguments are used in calls inside a contract only. A call by a transaction or through the API that leaves the argument out fails when the argument is read.
40. (C83) Operands are passed by address: `x + x++` adds the changed x.
41. (C82) `&` and `&&`, `^` and `^^`, `|` and `||` share a rank: `a | b && c` is read as `a | (b && c)`. `a = b = c` is read as `(a = b) = c` and leaves b unchanged.
42. (C83) `&&` and `||` evaluate both sides. `>>=`, `<<=`, `!!a`, unary minus, `break` and `continue` are refused. Shift counts are taken modulo 2^64.
43. (C87) `Prover::get_qualities` sets `have_begin` as soon as the park it looks at starts below `Y_end`. If that park starts inside the range, the matches at the end of the park before it are missed.
    `initial_y_shift` makes this unlikely for real plots, it does not exclude it. One unreadable meta park makes the whole plot fail for the challenge.
44. (C88) Neither `verify` nor `compute` checks that the starting values are below 2^k, nor that they differ: all 32-bit values are accepted for every size.
45. (C86) `Harvester::send_response` cuts the name to 1024 characters, `ProofResponse::is_valid` wants fewer than 1024: a harvester with such a name has all its proofs refused.
46. (C89) `voted_blocks` is indexed by the parent of the block. After a reorganisation to a chain with another parent the node votes at once for a second block at the same height, although the code waits
    one block interval between two blocks with the same parent "to prevent vote fragmentation". It is not saved: after a restart the node may vote at once for a second block with the same parent.
47. (C90) The vote for an orphaned block is replaced without a look at the proof: the node then votes for a block it knows a better proof for. Other nodes that know the better proof drop that vote.
48. (C91) `created_blocks` is not saved: a node that is restarted within a block interval makes and signs a second block from the same proof. Neither `created_blocks` nor `voted_blocks` is ever purged.
49. (C95) `recover(amount, currency)` of the fixed price liquid token is meant for other currencies, but its argument hides the variable `currency` and nothing is compared: the owner can take the backing of
    all tokens, after which sales fail.
50. (C97) In the horse race the price of a sale is that of the pot less the nominal value of what is sold. Who holds all tokens of a horse and sells them at once gets nothing, and the pot stays in the contract for
    ever; if the nominal value is above the pot the sale fails (it must be split). A bet that leaves the pot below PRECISION divides by zero and fails.
51. (C99) get_history with since > until does not return an empty list: the step that adds the remaining entries of the last block (Node_api.cpp:444-455) starts from the initial position and returns all
    payments of height until. The filters on type and currency are not applied to pending entries.
52. (C100) get_history_memo lacks that step: with a limit, of a block with more than 100 payments with the memo only the last 100 are returned, although results are meant to be cut at blocks only.
53. (C102) The node keeps the liquidity of users in swap_liquid_map, apart from the contract, and misses changes: switch_pool is ignored, after which the report is wrong and a later rem_liquid can make
    it wrap below zero to almost 2^128; rem_all_liquid without its optional argument is skipped because of `entry.args.size() > 0`; calls from other contracts are not seen.
54. (C102) The key has op->address instead of the resolved address (Node.cpp:1243): liquidity added in the transaction that deploys the swap is recorded under the zero address, and
    get_swap_liquidity_by then throws for this user ("no such swap"), for ever. Addresses given twice count twice (get_total_balance uses a set).
55. (C103) get_offer converts the price to 128 bits and computes the amount that buys all, and throws when one does not fit. Nothing in the offer contract prevents such offers, and the queries do not
    catch: one offer with price 2^128, or with price 1 and a balance of 2^64, makes get_offers, get_recent_offers and get_recent_offers_for throw for everybody while it is among the rows that are read.
56. (C103) The index of offers is by hash(ask + bid), hash("ANY" + bid), hash(ask + "ANY"). Currencies are addresses, whose bytes may begin or end with these three letters; then strings coincide: a search
    for what asks for "ANY"+m returns offers that bid m+"ANY". Finding such addresses needs 2^24 tries each for the letters, and more for the middle to agree; token addresses are hashes, so the middle is hard.
57. (C103) get_recent_offers_for ignores min_bid when neither bid nor ask is given (Node_api.cpp:1103).
58. (C104) The trade log has what was paid in. For accept() this is reported as traded, and bid_amount is computed from it, although the contract returns what is too much: the report can exceed what the offer had.
    With a large enough payment the multiplication does not fit and get_trade_history throws for everybody.
59. (C104) Trades made by contracts are not logged; the bid currency of an offer that was deployed in the same block is read from storage before the block is committed there and comes out as the native currency.
60. (C105) Node::apply updates farmer_ranking before write_block and height_map.insert. If one of these throws (for example because the disk is full), the handler calls revert(), which goes back from the old peak
    and does not take the count back: the farmer is counted once too often until the next restart or deep revert. Reverted farmers stay in the ranking with count 0.
61. (C106) farmed_block_info_t.reward has 32 bits, BlockHeader.reward_amount has 64: a block with a reward of 2^32 (4295 MMX, possible through fees) or more is reported modulo 2^32. Keys given twice count twice.
62. (C107) get_swap_trade_estimate and get_swap_history take an index of type uint32 / uint8 from the caller and do not check it: an index of 2 or more reads past the end of info.tokens in get_swap_trade_estimate.
63. (C110) make_offer stores only the inverse price, floor(bid * 2^64 / ask). If that number is small (a bid of few units for a huge amount) the offer costs up to almost twice what was asked (3 units for 2 * 2^64: the offer sells
    for 3 * 2^64), and if ask > bid * 2^64 the wallet makes and signs a transaction that can only fail. It also does not check that the currencies differ.
64. (C111) get_balances, get_total_balances and get_all_balances without a list of currencies stop after `limit` rows of the table (100 by default), and rows whose balance is zero again count. Anyone can send an address tokens with
    small addresses; what it holds in other currencies is then missing from the answer.
65. (C112) update_from takes the fee from the sender of a transaction even if that is not an address of the wallet. After signing such a transaction the wallet shows the fee of the other party as its own reserved funds, and a total
    that is larger than what it has.
66. (C113) owner_map is written when a contract is deployed and never again. get_contracts_owned_by keeps listing a plot NFT for the address that gave it away and never lists it for the new owner; the wallet of the old owner goes on
    to count the balance of that contract as its own locked funds (C112: external balances), the new owner sees nothing. An escrow is listed for its target although the agent may return the funds to the source.
67. (C114) The handler of a failed get_blocks_at sets sync_pos back but asks for nothing. When the failed request was the only one outstanding and a peak is known, the next update sets sync_pos to *sync_peak - 1 and forgets
    the failed height: the node finishes its sync, says that it is synced and has a gap below its peak (C114_lost_refuted). It has to fetch the missing block by hash later.
68. (C115) verify_plot_nft_target asks the plot NFT for its target without naming a farmer. An unlocked plot NFT then names its owner, but names the farmer when a block asks. A farmer that transfers a plot NFT, never locked, to the
    pool's target address has all partials accepted and keeps every block (C115_unlocked_refuted, C115_given_away). The check should also ask for is_locked.
69. (C115) Partial::calc_hash joins the fields without lengths or separators: one signature is good for every way to split pool_url and harvester (C115_split_refuted). Nothing else can be moved (C115_binding).
70. (C116) A missing or expired file sets try_again even when fetching it has failed, and the vote is only set to 0 when try_again is not set. A node that loses access to its sources keeps its last vote for ever
    (C116_stale_refuted), although its prices are treated as unknown.
71. (C116) The check of the swissquote prices is `bid / ask > 1.1`, which bounds bid by ask but not ask by bid: an ask of 1000 times the bid is accepted and the mean is used (C116_weak_refuted).
    With two prices get_median is their mean, so one of them decides.
72. (C117) Node::read_storage(contract, height) calls storage->read without the height: it returns the present values for every height that is asked for (C117_height_refuted). The other functions use it.
73. (C117) Erasing stores a variable with FLAG_DELETED. StorageProxy hides these from contracts; the functions of the node that read storage do not: after a pop the array that read_storage_array returns is longer than the
    array, with null at the end, and entries deleted from a map are still listed, with null (C117_erased_refuted).
74. (C117) read_storage_map reads the keys with an engine that has the gas of one transaction, 2000 for each key. With max_tx_cost = 25000000 a map with 12500 stored keys or more cannot be read: the call throws
    (C117_map_limit_refuted). Nothing limits the size of a map in a contract.
75. (C119) Transaction::is_signed checks that the inputs have signatures. The sender, who pays the fee and must sign first, and the users of operations are not looked at: with a sender that is not an address of the wallet
    the wallet sends off a transaction that the node must refuse (C119_sender_refuted).
76. (C119) ECDSA_Wallet::complete and sign_off leave signatures that are there as they are, but may change the fee ratio, expiry, nonce, inputs and amounts, and with them the id that was signed. The result counts as signed
    and is worthless (C119_again_refuted).
77. (C119) ECDSA_Wallet::complete computes max_fee_amount and the fee that the sender must have before the signatures are there, which cost min_txfee_sign each. With gas_limit below that the node refuses the transaction
    with 'static transaction fee > max_fee_amount' (C119_gas_refuted); a sender with a balance in between is chosen although the fee cannot be paid.
78. (C119) max_fee_amount and static_cost have 32 bits. With the default gas limit and a fee ratio of 859 (879434 / 1024) or more the limit wraps around and the transaction is refused, or has less gas than was asked for
    (C119_wrap_refuted).
79. (C120) Router::on_request signs any 32 bytes that a peer sends (Router_sign_msg). Who is connected to a node can hand our challenge on to it: it then counts as that node and our connection to the real one is closed
    ('Replacing connection', C120_relay_refuted). The message should name both ends.
80. (C120) Router::kick_peer bans only addresses that are connected at the moment; otherwise it does nothing and says nothing (C120_kick_refuted). ban_peer drops the first ban (in the order of text) when there are a million.
81. (C121) is_public_address does not know 172.16.0.0/12, so that such addresses are told to other nodes, which try them (C121_private_refuted).
82. (C121) Router::connect dials a fixed peer by its name and, as connect_tasks has names, the same host by its address again (C121_twice_refuted).
83. (C122) Harvester::init draws harvester_id at random at each start, and Farmer::info_map is keyed by it, so that a harvester that starts again counts twice in the farm info for harvester_timeout (60) seconds and more (C122_restart_refuted).
84. (C122) Farmer::handle(FarmInfo) keeps partial_diff when the server url of a contract changes: partials for the new pool are filtered by the difficulty of the old one until the new one answers (C122_pool_refuted).
85. (C123) Farmer::sign_block with no reward address signs a block that has a reward but no address; BlockHeader::is_valid is then false and the block is lost, without an error by the farmer (C123_address_refuted).
86. (C125) Wallet::create_account takes the number of a new account from wallets.size(), but main, remove_account and set_address_count take it as max_key_files plus the place in accounts. When the last account was removed and the wallet started again, wallets is shorter: a new account gets a number that belongs to another place, and removing it hides another account for good, while the removed one comes back at the next start (C125_remove_refuted).
87. (C125) Wallet::add_account sets wallets[index] (or makes wallets longer) before it can throw. A failed create_account with a wrong passphrase leaves an account that is listed and not saved, and all later accounts have shifted numbers (C125_failed_refuted).
88. (C125) Wallet::set_address_count on a removed account brings it back until the next start (C125_count_refuted); where accounts is longer than wallets (removed accounts at the end, after a start) it writes wallets[index] behind the end (src/Wallet.cpp:1083).
89. (C126) Nothing compares vdf_reward_addr of a block with reward_addr of its VDF points. The comment at src/Node_validate.cpp:114 says that find_vdf_points does, but it looks at outputs, infusions and iterations only. A farmer can name any address in its blocks, and with enough blocks in an interval it gets the reward of the timelord (C126_named_refuted).
90. (C127) Transaction::merge_sign and is_signed look at inputs only. The signature of another party for an operation (execute) is lost when merging, and is_signed is true for a transaction whose operations are not signed (C127_operations_refuted).
91. (C127) Transaction::merge_sign compares with solutions.size() while it grows: an input that is unsigned by an index that is not there, other than NO_SOLUTION, can take the solution of another input (C127_stray_refuted).
92. (C128) Node::get_swaps takes the oldest swaps up to the limit and orders these by balance, so that with a limit the swap with most liquidity may not be listed (C128_best_refuted).
93. (C129) Wallet::rem_token removes a token from the list in memory and from the key "token_whitelist+" of the config file only. A token that is also in the default list is shown again after a restart (C129_removed_refuted), and one that is only in the default list cannot be removed at all (C129_removed).

## 7. How the theorems were tested

`seeded/LOG.jsonl` has one line per wrong program: the definition of the model that was edited, the edit, the claim it breaks, the theorems that failed and those that were
tightened because of it. Edits are of the kind a realistic bug makes: a wrong boundary, a missed case, a swapped argument, a dropped update. An edit counts as caught when a
property theorem (not only an example) no longer builds.
