{"id": "C01", "title": "Table lookup returns the newest visible write", "statement": "After any history of Table insert/commit/revert/flush and background block merging, find(key, max_version) returns the value of the last insert of that key among the surviving inserts whose version is <= max_version (last insert wins inside one version), and 'not found' exactly when there is none.", "quantifier": "every finite sequence of insert/commit/revert/flush/merge operations, every key and every max_version", "why_tests_cant": "the answer depends on how writes are spread over memory, log and an unbounded number of on-disk blocks at several levels; tests only sample a few layouts", "anchors": ["src/DataBase.cpp: Table::find, Table::insert, Table::commit, Table::revert, Table::flush, Table::check_rewrite, Table::rewrite", "include/mmx/DataBase.h: Table"]}
{"id": "C02", "title": "Flushing and merging are invisible to readers", "statement": "Flushing the memory table to a block file and merging blocks to a higher level never change the result of any lookup, scan or current_version, and every lookup still returns the same value at every max_version.", "quantifier": "every reachable table state, every key and version, every merge that the level policy can choose", "why_tests_cant": "merges happen only after particular amounts and sizes of data at each level; the state space of block layouts is unbounded", "anchors": ["src/DataBase.cpp: Table::flush, Table::check_rewrite, Table::rewrite"]}
{"id": "C03", "title": "Revert drops exactly the writes at or above the given version", "statement": "After revert(v), each lookup returns what it would have returned had only the surviving inserts of versions < v ever been made; inserts of versions < v are unaffected, and current_version() is v.", "quantifier": "every reachable table state (including data in memory and in any number of blocks) and every version v", "why_tests_cant": "reverting has to handle entries in memory, in the log and inside partially affected blocks; the cases multiply with every layout", "anchors": ["src/DataBase.cpp: Table::revert"]}
{"id": "C04", "title": "Crash safety of a table", "statement": "If the process dies at any point during insert/commit/flush/revert (other than between the renaming of a merged block and the deletion of its sources, which is C06) and the table is reopened, its contents are exactly those of the last commit that completed (or of the one in progress when its commit record had reached the disk); uncommitted inserts are gone and no committed value is lost or duplicated.", "quantifier": "every history and every crash point between two file-system effects", "why_tests_cant": "crash points inside flush and merge are timing dependent and unbounded in number", "anchors": ["src/DataBase.cpp: Table::Table, Table::commit, Table::flush, Table::write_entry, Table::revert"]}
{"id": "C05", "title": "Committed version survives a restart", "statement": "After commit(v) has returned, reopening the table reports current_version() == v, so that DataBase::recover() does not roll other tables back below their last common commit.", "quantifier": "every history of inserts, commits and flushes", "why_tests_cant": "depends on whether the automatic flush threshold was hit by a commit that wrote nothing new for the last versions", "anchors": ["src/DataBase.cpp: Table::commit, Table::flush, Table::Table, DataBase::recover"]}
{"id": "C06", "title": "Merge crash leaves no duplicate block", "statement": "If the process dies while a block merge is being finalised (after the merged block became visible and before all source blocks were deleted), reopening the table yields the same contents and a block list in which no write is represented twice.", "quantifier": "every set of source blocks and every crash point in check_rewrite", "why_tests_cant": "requires a kill between two unlink calls of a background thread", "anchors": ["src/DataBase.cpp: Table::Table (block overlap check), Table::check_rewrite"]}
{"id": "C07", "title": "Iteration is sorted, complete and newest-valued", "statement": "Starting from seek_begin and calling next() until invalid enumerates every live key exactly once in ascending byte order with the value find() would return; seek_last with prev() enumerates them in descending order; seek(key) starts at the first key >= key and seek_prev(key) at the last key < key.", "quantifier": "every reachable table state, every start key", "why_tests_cant": "depends on how equal keys are spread over memory and blocks", "anchors": ["src/DataBase.cpp: Table::Iterator"]}
{"id": "C08", "title": "Changing iteration direction visits the true neighbour", "statement": "From any position, next() moves to the smallest key greater than the current one and prev() to the greatest key smaller than the current one, whatever the direction of the previous move.", "quantifier": "every reachable table state and every sequence of next()/prev() calls", "why_tests_cant": "only fails when the current key is missing from some block or from memory while the neighbour is stored there", "anchors": ["src/DataBase.cpp: Table::Iterator::next, Table::Iterator::prev, Table::Iterator::seek"]}
{"id": "C09", "title": "Multi-value tables keep every value in insertion order", "statement": "multi_table::insert(key, value) never overwrites an earlier value: find(key) returns all values inserted for the key, in insertion order, and nothing belonging to another key, and find_last(key, n) returns the last n of them newest first; insertion fails explicitly once the index space is exhausted.", "quantifier": "every sequence of inserts over arbitrary keys", "why_tests_cant": "depends on neighbouring keys and on index arithmetic at the limit of the index type", "anchors": ["include/mmx/multi_table.h: multi_table::insert_many, find, find_last", "src/DataBase.cpp: Table::Iterator::seek_prev"]}
{"id": "C10", "title": "Table keys keep order and identity", "statement": "The byte keys written for integer, (integer, integer), (hash, integer), (hash, integer, integer) and (address, address) tables decode back to the same key, are different for different keys, and compare byte-wise exactly as the keys compare lexicographically.", "quantifier": "every pair of keys of every supported shape and width", "why_tests_cant": "order preservation is a relation between all pairs of keys", "anchors": ["include/mmx/table.h: uint_table, uint_uint_table, hash_table, hash_uint_table, hash_uint_uint_table, balance_table_t", "include/mmx/multi_table.h"]}
{"id": "C11", "title": "VM values survive storage", "statement": "Deserialising the bytes produced by vm::serialize for any VM value yields the same value and consumes exactly those bytes, even when more data follows; integers use the shortest width that holds them.", "quantifier": "every VM value (all types, all 256-bit integers, every string/binary length below 2^32), every option combination and every trailing data", "why_tests_cant": "the integer and length boundaries (2^16, 2^32, 2^64, 2^128) multiply with options and nesting", "anchors": ["src/vm/var_t.cpp: serialize, deserialize", "include/mmx/vm/var_t.h"]}
{"id": "C12", "title": "Deserialising untrusted bytes never reads out of bounds", "statement": "vm::deserialize on an arbitrary byte string either fails with an error or consumes at most the given number of bytes and depends only on those bytes.", "quantifier": "every byte string and length", "why_tests_cant": "unbounded space of malformed inputs", "anchors": ["src/vm/var_t.cpp: deserialize"]}
{"id": "C13", "title": "VM value ordering is a total order that agrees with equality", "statement": "vm::compare is antisymmetric, transitive and total, and returns 0 exactly for identical values, so it can be used as a map key order.", "quantifier": "every pair and triple of VM values", "why_tests_cant": "a relation over all triples of values", "anchors": ["src/vm/var_t.cpp: compare", "include/mmx/vm/var_t.h: operator<"]}
{"id": "C14", "title": "Transaction ids bind call arguments", "statement": "Two operations or contracts that differ in any JSON-like argument have different hash pre-images, so a signature for one can never be replayed for another (from transaction version 1 on).", "quantifier": "every pair of argument values of arbitrary nesting", "why_tests_cant": "injectivity is a statement about all pairs of values", "anchors": ["include/mmx/write_bytes.h: write_bytes(WriteBytes&, const vnx::Variant&), write_bytes for vector/string/map", "src/operation/Execute.cpp: Execute::calc_hash", "src/Transaction.cpp: Transaction::hash_serialize"]}
{"id": "C15", "title": "Block header commits to its transaction list", "statement": "Two blocks with the same tx_count and the same tx_hash contain the same transactions in the same order, unless somebody found a hash collision.", "quantifier": "every pair of transaction lists", "why_tests_cant": "statement about all pairs of lists of unbounded length", "anchors": ["include/mmx/tree_hash.h: calc_btree_hash", "src/Block.cpp: Block::calc_tx_hash, Block::is_valid"]}
{"id": "C16", "title": "Plot park symbols decode back", "statement": "pos::decode applied to the output of pos::encode returns the original symbols for every symbol sequence the encoder accepts and any bit offset.", "quantifier": "every list of symbols 0..47 of every length", "why_tests_cant": "depends on how variable-length codes straddle 64-bit words and the 32-bit refill rule", "anchors": ["src/pos/encoding.cpp: encode_symbol, decode_symbol, encode, decode"]}
{"id": "C17", "title": "Recovery phrase round trip", "statement": "words_to_seed(seed_to_words(seed)) == seed for every wallet seed, a phrase has 24 words of the list, and a phrase whose checksum byte does not match is rejected.", "quantifier": "every 256-bit seed and every duplicate-free word list of 2048 words", "why_tests_cant": "2^256 seeds", "anchors": ["src/mnemonic.cpp: seed_to_words, words_to_seed"]}
{"id": "C18", "title": "Address strings identify addresses", "statement": "Parsing the string form of an address returns the same address, and different addresses have different strings.", "quantifier": "every 256-bit address", "why_tests_cant": "2^256 addresses", "anchors": ["src/addr_t.cpp: addr_t::to_string, addr_t::from_string"]}
{"id": "C19", "title": "Fixed-point amounts print and parse exactly", "statement": "Parsing the decimal string printed for a fixed-point amount gives back exactly that amount, and converting to a token amount with d decimals never creates value.", "quantifier": "every 128-bit fixed-point value and every number of decimals", "why_tests_cant": "2^128 values", "anchors": ["src/fixed128.cpp: fixed128::fixed128(std::string), fixed128::to_string, fixed128::to_amount"]}
{"id": "C20", "title": "Contract byte code survives packing", "statement": "Deserialising the serialised instruction list of a contract yields the same instructions.", "quantifier": "every instruction list with any operands", "why_tests_cant": "symbol table overflow and escape encodings only appear for particular frequency distributions", "anchors": ["src/vm/instr_t.cpp: serialize, deserialize, encode_symbol, decode_symbol"]}
{"id": "C21", "title": "Contract execution always terminates within its gas", "statement": "Every contract call ends after finitely many instructions, at most gas_limit/20 + 1 of them, whatever the code does, and never reports success with gas_used above gas_limit.", "quantifier": "every program, every input, every gas limit", "why_tests_cant": "programs form an unbounded space including loops and recursion", "anchors": ["src/vm/Engine.cpp: Engine::run, Engine::step, Engine::exec, Engine::check_gas"]}
{"id": "C22", "title": "VM integer arithmetic is exact or fails", "statement": "With overflow checking on (tx version >= 1) ADD, SUB, MUL, DIV, MOD on unsigned integers either produce the mathematically exact result or abort the call; no wrapped result is ever observable.", "quantifier": "every pair of 256-bit operands", "why_tests_cant": "2^512 operand pairs; overflow conditions are at the boundary", "anchors": ["src/vm/Engine.cpp: Engine::exec (OP_ADD, OP_SUB, OP_MUL, OP_DIV, OP_MOD)"]}
{"id": "C23", "title": "Contract code cannot modify constants or call context", "statement": "During execution no instruction can change a constant, the caller's address, the contract's own address, the deposit, the height or the transaction id.", "quantifier": "every program and every execution step", "why_tests_cant": "must hold for any instruction sequence with any operands, including indirect references", "anchors": ["src/vm/Engine.cpp: Engine::begin, Engine::write, Engine::assign, Engine::erase", "include/mmx/vm/Engine.h: MEM_CONST, MEM_EXTERN"]}
{"id": "C24", "title": "A contract cannot send more than it owns", "statement": "The total a contract sends in one call, per currency, never exceeds its balance at the start of the call including the deposit; the engine's view of the balance after the call is exactly the rest.", "quantifier": "every program, every number of send instructions, every currency mix", "why_tests_cant": "depends on arbitrary sequences of sends interleaved with other instructions and remote calls", "anchors": ["src/vm/Engine.cpp: Engine::send, Engine::read_balance", "src/Node_validate.cpp: Node::execute"]}
{"id": "C25", "title": "Storage overlay isolates uncommitted changes", "statement": "A StorageCache over a backend reads like the backend with its own writes on top; dropping it leaves the backend unchanged, and committing it makes the backend read exactly like the cache did, for values, map entries, array sizes and balances, at every nesting depth.", "quantifier": "every sequence of reads/writes on any stack of caches", "why_tests_cant": "unbounded nesting and write sequences", "anchors": ["src/vm/StorageCache.cpp: StorageCache", "src/vm/StorageRAM.cpp", "src/vm/StorageDB.cpp"]}
{"id": "C26", "title": "Transactions conserve every currency", "statement": "For a transaction that executes successfully, per currency: explicit inputs + inputs drawn from contracts + newly minted amounts == explicit outputs + outputs created by contracts + deposits kept by contracts; only mint by the currency's own contract creates units.", "quantifier": "every transaction, every contract behaviour, every initial ledger", "why_tests_cant": "depends on arbitrary combinations of inputs, deposits, contract sends and implicit deposits", "anchors": ["src/Node_validate.cpp: Node::validate(tx, context), Node::execute", "include/mmx/utils.h: handle_implicit_deposit"]}
{"id": "C27", "title": "Transaction fee bounds", "statement": "The fee charged for an included transaction is at least the fee for its static cost and at most max_fee_amount, and the sender can always pay it.", "quantifier": "every transaction, cost, fee ratio and balance", "why_tests_cant": "64-bit products and rounding at the boundary", "anchors": ["src/Node_validate.cpp: Node::validate(tx, context)", "include/mmx/utils.h: cost_to_fee, fee_to_cost"]}
{"id": "C28", "title": "A failed transaction only costs its fee", "statement": "If execution of a transaction fails, the only effect of including it is the fee deducted from the sender: no contract storage, balance or output changes.", "quantifier": "every transaction, every failure point, every contract behaviour", "why_tests_cant": "a failure can happen after any number of partial effects", "anchors": ["src/Node_validate.cpp: Node::validate(tx, context)", "src/Block.cpp: Block::get_inputs, Block::get_outputs", "src/Node.cpp: Node::apply"]}
{"id": "C29", "title": "Accepted blocks never overdraw any balance", "statement": "Applying a block that passed validation never subtracts more from an (address, currency) balance than is there, so balances are exact and never silently clamped.", "quantifier": "every ledger state and every valid block", "why_tests_cant": "several transactions of one block may spend the same balance through fees, inputs and contract sends", "anchors": ["src/Node_validate.cpp: Node::validate(block)", "src/Node.cpp: Node::apply", "include/mmx/balance_cache_t.h"]}
{"id": "C30", "title": "Reported total supply matches balances", "statement": "The total supply reported for a currency equals the sum of all balances in that currency after every block.", "quantifier": "every chain history", "why_tests_cant": "depends on whole-chain histories of mint, burn, fees and rewards", "anchors": ["src/Node.cpp: Node::apply (supply_delta, total_supply_map)"]}
{"id": "C31", "title": "A transaction the node executed re-validates in its block", "statement": "When a node executes a pool transaction and puts it, with the execution result, into a block, validating that block from the same state accepts the transaction.", "quantifier": "every transaction, gas consumption, fee ratio and fee limit", "why_tests_cant": "the second validation starts from a different static cost and gas limit; equality depends on rounding and on which cost terms are counted where", "anchors": ["src/Node_update.cpp: Node::validate_for_block", "src/Node_validate.cpp: Node::validate(tx, context)", "src/Transaction.cpp: Transaction::update, calc_cost"]}
{"id": "C32", "title": "Parallel validation equals sequential execution", "statement": "Validating the transactions of a block on any number of threads gives each transaction the same result, and the contracts the same final state, as executing them one after the other in block order.", "quantifier": "every block, every thread schedule", "why_tests_cant": "the number of schedules is unbounded and nondeterministic", "anchors": ["src/Node_validate.cpp: prepare_context, execution_context_t::wait/signal/setup_wait, Node::validate(block)"]}
{"id": "C33", "title": "Parallel validation cannot deadlock", "statement": "All validation tasks of a block finish for every thread schedule and every number (>= 1) of worker threads.", "quantifier": "every block, thread count and schedule", "why_tests_cant": "deadlocks depend on rare interleavings", "anchors": ["src/Node_validate.cpp: execution_context_t::wait/signal, Node::validate(block)"]}
{"id": "C34", "title": "Multi-signature threshold", "statement": "A MultiSig contract accepts a solution only if at least num_required distinct owners provided a valid signature of the transaction id, and accepts whenever the provided solutions contain that many valid owner signatures and no invalid one.", "quantifier": "every owner set, threshold and solution map", "why_tests_cant": "all combinations of owners and signatures", "anchors": ["src/contract/MultiSig.cpp: MultiSig::validate, is_valid", "src/contract/PubKey.cpp"]}
{"id": "C35", "title": "Block reward and fee split never create or lose fees beyond the rules", "statement": "For every block the farmer's share plus the project's share of the fees is at most the fees paid, at least half of the fees minus rounding goes to the farmer, and the reward-deduction buffer never goes negative.", "quantifier": "every fee amount, reward and parameter set", "why_tests_cant": "64-bit boundary cases", "anchors": ["include/mmx/utils.h: calc_project_reward, calc_final_block_reward, calc_min_reward_deduction, calc_new_txfee_buffer", "src/Block.cpp: Block::get_outputs"]}
{"id": "C36", "title": "Base reward voting stays in range", "statement": "Under any votes the base reward stays between 0 and 4.2 million MMX and changes by at most one step per adjustment interval, only in the direction of the vote and only with enough votes.", "quantifier": "every vote history", "why_tests_cant": "unbounded vote histories", "anchors": ["include/mmx/utils.h: calc_new_base_reward", "src/BlockHeader.cpp: set_base_reward", "src/Node_validate.cpp: validate(block)"]}
{"id": "C37", "title": "Space difficulty adjustment is bounded and never zero", "statement": "The space difficulty never becomes zero, moves towards the observed proof rate, and one update changes it by at most the measured deviation (or 1).", "quantifier": "every previous difficulty, proof count and fork length allowed by validation", "why_tests_cant": "32/64-bit wrap boundaries", "anchors": ["include/mmx/utils.h: calc_new_space_diff", "src/BlockHeader.cpp: set_space_diff"]}
{"id": "C38", "title": "Fork choice does not depend on arrival order", "statement": "Two nodes that know the same verified blocks and votes on the same root choose the same best fork, whatever order the blocks arrived in.", "quantifier": "every set of forks and every arrival order", "why_tests_cant": "all permutations of all fork sets", "anchors": ["src/Node.cpp: Node::find_best_fork"]}
{"id": "C39", "title": "Each validator counts once", "statement": "The vote count of a block equals the number of distinct validators of that block from which a vote was accepted; it never exceeds the validator set size, however often votes are replayed.", "quantifier": "every sequence of vote messages", "why_tests_cant": "arbitrary replay and ordering of messages", "anchors": ["src/Node_update.cpp: Node::verify_votes", "src/Node.cpp: Node::get_validators"]}
{"id": "C40", "title": "Challenge lookup is consistent along the chain", "statement": "The challenge and difficulty a farmer is given for a VDF height equal those used to verify a block at that VDF height on the same chain, no matter from which block of the chain they are looked up, unless a space fork after that block falls before the VDF height whose challenge is used (the height minus the challenge delay). In particular this holds without exception for the next block, however many VDF heights it skips, and for every VDF height within the challenge delay.", "quantifier": "every chain, every VDF height in reach, every number of skipped VDF heights", "why_tests_cant": "depends on arbitrary patterns of skipped VDF heights across the challenge delay", "anchors": ["src/Node.cpp: Node::find_challenge, get_challenge", "include/mmx/utils.h: calc_next_challenge"]}
{"id": "C41", "title": "Transaction pool fee accounting", "statement": "For every sender the pool's recorded total of pending fees equals the sum of the fees of that sender's transactions in the pool, after any sequence of adds, replacements and removals.", "quantifier": "every sequence of pool operations", "why_tests_cant": "arbitrary interleavings of updates and erases", "anchors": ["src/Node_update.cpp: Node::tx_pool_update, tx_pool_erase"]}
{"id": "C42", "title": "Block building respects the fee-ratio bands", "statement": "A transaction list selected for a new block always passes the block validator's ordering, size, cost and per-band minimum fee-ratio checks.", "quantifier": "every pool content and every band configuration", "why_tests_cant": "depends on arbitrary combinations of sizes and fee ratios", "anchors": ["src/Node_update.cpp: Node::validate_for_block", "src/Node_validate.cpp: Node::validate(block)"]}
{"id": "C43", "title": "Wallet builds balanced, covered transactions", "statement": "When the wallet completes a transaction without error, for every currency the inputs equal outputs plus deposits, and the total taken from each of its addresses does not exceed that address' spendable balance.", "quantifier": "every wallet balance map, outputs, deposits and pre-existing inputs", "why_tests_cant": "arbitrary distributions of balances over addresses and currencies", "anchors": ["include/mmx/ECDSA_Wallet.h: gather_inputs, complete"]}
{"id": "C44", "title": "Offers trade at the advertised price", "statement": "Every accepted trade on an offer contract pays the owner at least the advertised price for what the taker receives, never gives the taker more than the offer holds, refunds the taker's excess exactly, and only the owner can cancel, withdraw or change the price. An NFT offer hands the NFT over for exactly its price, paid to the owner at once.", "quantifier": "every history of deposits, trades, price changes and cancels", "why_tests_cant": "rounding of 64.64 fixed-point prices and arbitrary histories", "anchors": ["src/contract/offer.js", "src/contract/nft_offer.js"]}
{"id": "C45", "title": "Swap pools stay solvent", "statement": "A swap contract always holds enough of both tokens to pay every liquidity provider's share and all unclaimed fees; a trade never decreases the product of reserves including fees; liquidity units of users sum up to the pool totals.", "quantifier": "every history of adds, removals, trades, pool switches and payouts by any users", "why_tests_cant": "arbitrary interleavings of many users over several pools", "anchors": ["src/contract/swap.js"]}
{"id": "C46", "title": "Swap liquidity removal pays out what it removes", "statement": "Removing liquidity sends the user the tokens by which the pool shrinks.", "quantifier": "every user, pool state and call", "why_tests_cant": "depends on optional call arguments that tests may never pass", "anchors": ["src/contract/swap.js: rem_liquid, rem_all_liquid"]}
{"id": "C47", "title": "Plot NFT lock protects the farming target", "statement": "While a plot NFT is locked to a target, and for 256 blocks after an unlock request, nobody, including the owner, can redirect its farming rewards; only the owner can lock, unlock, transfer or withdraw.", "quantifier": "every history of calls by any users at any heights", "why_tests_cant": "arbitrary call histories over time", "anchors": ["src/contract/plot_nft.js"]}
{"id": "C48", "title": "Custody contracts release funds only to the right party", "statement": "Time-locked funds cannot leave before the unlock height, which can only increase; escrow funds only go to source or target and only on the agent's decision; relay, token, transfer and smart wallet contracts pay out or mint only on behalf of the current owner (or, for smart-wallet plans, the plan's target at most once per interval, and nothing after the owner cancelled the plan).", "quantifier": "every history of calls by any users at any heights", "why_tests_cant": "arbitrary call histories", "anchors": ["src/contract/time_lock.js", "src/contract/escrow.js", "src/contract/relay.js", "src/contract/token.js", "src/contract/transfer.js", "src/contract/smart_wallet.js"]}
{"id": "C49", "title": "A node's own block passes its own time checks", "statement": "The time difficulty and time stamp that a node computes for a block it produces always satisfy the limits the block validator enforces (relative change per block, minimum difficulty, minimum and maximum time step), whatever the clock and the measured block times are.", "quantifier": "every previous difficulty, every estimate, every clock reading, every number of VDF steps", "why_tests_cant": "the estimate comes from floating point over measured times and the clamps involve shifts and unsigned arithmetic near their limits; tests sample few values", "anchors": ["src/Node_update.cpp Node::make_block", "src/Node_validate.cpp Node::validate, Node::validate_diff_adjust"]}
{"id": "C50", "title": "Line points decode to the pair they encode", "statement": "The pair of x values of a proof is recovered exactly from its line point x(x-1)/2 + y, every line point in range belongs to exactly one pair, and for plots with truncated x values pairs with equal or zero values are recovered too.", "quantifier": "every pair y < x (or y <= x for truncated plots) of 32-bit values and every line point", "why_tests_cant": "there are 2^63 line points; the integer square root is a 32 step search with wrapping 32/64 bit arithmetic whose error cases sit at isolated boundaries", "anchors": ["include/mmx/pos/encoding.h: GetXEnc, LinePointToSquare, LinePointToSquare2, LinePointToSquare3", "src/pos/Prover.cpp: Prover::get_full_proof"]}
{"id": "C51", "title": "Contract execution has no undefined behaviour", "statement": "Whatever byte code a contract has and whatever it is called with, executing it never makes the node read or write an object that was already destroyed.", "quantifier": "every program, every input", "why_tests_cant": "programs form an unbounded space and the effect depends on the order in which an instruction clears its destination and reads its source", "anchors": ["src/vm/Engine.cpp: Engine::copy, Engine::pop_back, Engine::write, Engine::assign, Engine::clear"]}
{"id": "C52", "title": "Erasing a map entry is permanent", "statement": "After a successful call that erased a map entry (and did not set it again) the entry is gone from the contract's storage, whatever the call did to that entry before.", "quantifier": "every program, every stored map", "why_tests_cant": "depends on the history of the entry within the call and on whether it was loaded from storage", "anchors": ["src/vm/Engine.cpp: Engine::erase, Engine::erase_entry, Engine::write_entry, Engine::commit"]}
{"id": "C53", "title": "Return values of remote calls are delivered", "statement": "The value a public method leaves as its return value is what the calling contract finds after the remote call.", "quantifier": "every method of every contract", "why_tests_cant": "depends on the storage commit that runs between the end of the method and the copy of the result", "anchors": ["src/Node_validate.cpp: Node::execute", "src/vm/Engine.cpp: Engine::commit, Engine::clear_stack"]}
{"id": "C54", "title": "Failed remote calls are paid for", "statement": "A transaction that fails is charged for all instructions that were executed for it, up to its gas limit, including those of the contracts it called.", "quantifier": "every program, every nesting of calls", "why_tests_cant": "needs a failure in a nested call at an arbitrary point", "anchors": ["src/Node_validate.cpp: Node::execute"]}
{"id": "C55", "title": "Stack accesses stay within the stack", "statement": "No sequence of calls and returns makes the engine clear or access memory outside of the stack area.", "quantifier": "every program", "why_tests_cant": "only specific combinations of call offsets reach the end of the stack area", "anchors": ["src/vm/Engine.cpp: Engine::call, Engine::ret, Engine::clear_stack"]}
{"id": "C56", "title": "A call touches only the contracts it locked", "statement": "Executing an operation changes the storage of, and sends funds from, only those contracts which the transaction locked before execution, whatever the code calls and also when it fails.", "quantifier": "every program, every nesting of remote calls, every set of contracts", "why_tests_cant": "unbounded programs and call graphs", "anchors": ["src/Node_validate.cpp: Node::execute", "src/vm/StorageProxy.cpp"]}
{"id": "C57", "title": "Read calls do not modify the chain state", "statement": "Calling any contract method through the API (call_contract), const or not, changes no storage and no balance.", "quantifier": "every program and every input", "why_tests_cant": "programs form an unbounded space", "anchors": ["src/Node_api.cpp: Node::call_contract", "src/vm_interface.cpp: execute"]}
{"id": "C58", "title": "Contracts do not share storage", "statement": "What one contract writes to its storage is never read by another contract, in the caches and in the database, for every pair of different contract addresses.", "quantifier": "every pair of contract addresses, every write and every storage stack", "why_tests_cant": "the pairs of addresses that would clash in the database are too rare to be met by tests, and can be searched for by an attacker", "anchors": ["src/vm/StorageDB.cpp: get_key, write_entry_key", "include/mmx/vm/StorageDB.h"]}
{"id": "C59", "title": "Funds are only taken with the owner's consent", "statement": "For every executed transaction: the sender's key accepted the first solution; every input of a successful transaction has a solution accepted by the key (or, if marked so, the stored contract) of its address; amounts drawn from contracts come only from contracts the transaction has locked.", "quantifier": "every transaction, set of solutions, contract behaviour and ledger", "why_tests_cant": "depends on arbitrary combinations of inputs, solutions and contract code", "anchors": ["src/Node_validate.cpp: Node::validate(tx, context)"]}
{"id": "C60", "title": "Validating a transaction always ends", "statement": "Validation of a transaction ends for every transaction, contract code and state, because all execution is paid for from a bounded fee.", "quantifier": "every transaction, contract code (loops, recursion, nested calls) and state", "why_tests_cant": "termination for arbitrary contract code", "anchors": ["src/Node_validate.cpp: Node::validate(tx, context), Node::execute", "src/vm/Engine.cpp: Engine::check_gas"]}
{"id": "C61", "title": "Validation with a deadline ends", "statement": "Validating new transactions, and executing transactions to build a block, always comes to an end when a deadline is set: the call returns, whenever the deadline passes, for every schedule of the worker threads.", "quantifier": "every list of queued transactions, every schedule, every moment at which the deadline passes, every number of threads", "why_tests_cant": "it depends on the deadline passing between the starts of two tasks that share a contract", "anchors": ["src/Node_update.cpp: validate_new, validate_for_block", "src/Node_validate.cpp: execution_context_t::wait/signal"]}
{"id": "C62", "title": "Pending entries in the history of addresses", "statement": "When the history of a set of addresses is asked for with pending transactions, it shows an input or output of a transaction in the pool exactly if it belongs to one of the addresses, and shows it once.", "quantifier": "every sequence of pool operations and every set of addresses", "why_tests_cant": "arbitrary histories of the pool and overlaps between the addresses of transactions", "anchors": ["src/Node_update.cpp: Node::tx_pool_update, tx_pool_erase", "src/Node_api.cpp: Node::get_history"]}
{"id": "C63", "title": "Purging the transaction pool", "statement": "After the pool was purged it holds a part of what it held, not more than the size limit, and for no sender more fees than the balance; nothing is removed if everything fits, and no transaction of a solvent sender is removed while one with a lower fee ratio stays.", "quantifier": "every pool, size limit and balances", "why_tests_cant": "all combinations of sizes, fee ratios and senders", "anchors": ["src/Node_update.cpp: Node::purge_tx_pool"]}
{"id": "C64", "title": "NFTs are minted at most once", "statement": "An NFT contract mints at most one unit over its whole life, and only when called by its creator. A template records each serial number at most once, never changes it, and only on a signature of the creator for exactly this template and serial number.", "quantifier": "every history of calls by any users", "why_tests_cant": "arbitrary call histories", "anchors": ["src/contract/nft.js", "src/contract/template.js"]}
{"id": "C65", "title": "A virtual plot pays only its owner and burns a tenth", "statement": "Only the owner can withdraw from a virtual plot; what leaves the plot on a withdrawal goes to the owner, except the tenth that is burned by sending it to the null address, and nothing else ever leaves it.", "quantifier": "every history of calls by any users and every amount", "why_tests_cant": "arbitrary call histories and amounts", "anchors": ["src/contract/virtual_plot.js"]}
{"id": "C66", "title": "Only blocks that are deep enough become final", "statement": "update() makes a block final (moves the root to it) only when the block is part of the chain the node has applied and at least commit_delay blocks below its peak, and it never undoes a final block.", "quantifier": "every set of blocks, whatever they claim about their height and predecessor, every order of arrival, every number of update rounds", "why_tests_cant": "needs all shapes of the fork tree, including blocks whose height does not fit to their predecessor", "anchors": ["src/Node_update.cpp: Node::update", "src/Node.cpp: Node::fork_to, Node::commit, Node::get_fork_line"]}
{"id": "C67", "title": "The wallet does not commit a coin twice", "statement": "Whatever sequence of balance updates and sent transactions a wallet goes through, what it regards as spendable at an address is the balance the node reported last less everything it has sent from there that is neither confirmed nor expired (never below zero); hence the inputs (and fee) of the next transaction it builds plus all open transactions never exceed the reported balance of an address they are taken from.", "quantifier": "every sequence of balance reports, histories, heights, marked transactions and resets; every next transaction without earlier inputs from the wallet itself", "why_tests_cant": "depends on arbitrary interleavings of sends, confirmations, expiries and changing balances", "anchors": ["include/mmx/ECDSA_Wallet.h: update_cache, update_from, complete", "src/Wallet.cpp: Wallet::update_cache, release_all, reset_cache"]}
{"id": "C68", "title": "All tables of the database come back at one version", "statement": "The node keeps its state in many tables that it commits and reverts together. Whenever the process dies (between or during inserts, a commit, a revert, opening the tables or the recovery itself), the next start brings all tables to one common version, not newer than the last commit that was started, and each table then answers every lookup exactly from the writes made before that version: no table is ahead of or behind the others.", "quantifier": "every number of tables with any comparators, every history of inserts, commits (with any tables flushing and merging) and reverts, every sequence of process deaths with every table having got arbitrarily far, also during recovery", "why_tests_cant": "depends on how far each of many tables got when the process died, and on repeated deaths during recovery", "anchors": ["src/DataBase.cpp: DataBase::commit, DataBase::revert, DataBase::min_version, DataBase::recover", "src/Node.cpp: Node::main (db->open_async, db->recover, db->min_version)"]}
{"id": "C69", "title": "A restart loses nothing that was committed", "statement": "After DataBase::commit(n) has returned, a restart of the node (after a process death) finds the database at version n, however often the process dies while starting.", "quantifier": "every history of the database, every later inserts, every process death afterwards", "why_tests_cant": "depends on which tables flush in the last commit and on what each of them had written before", "anchors": ["src/DataBase.cpp: DataBase::commit, DataBase::recover, Table::flush, Table::Table"]}
{"id": "C70", "title": "A verified proof of time is the work it claims", "statement": "A proof of time that the node has verified consists of exactly num_iters hash evaluations, one after the other, from its input (with the infused block and the reward address of the timelord mixed in) to its output, with every listed checkpoint on the way; a proof of which all checkpoints are right is never rejected by the computation. The verdict does not depend on the number of threads, their order, or which SIMD path the machine takes.", "quantifier": "every proof, every assignment of chunks to threads and every interleaving, every machine path", "why_tests_cant": "the verdict is shared between parallel chunks of lanes; a test sees one schedule and a few lengths, while the last lane of an odd length or the write of the failed segment is wrong only for some", "anchors": ["src/Node_verify.cpp: Node::verify_vdf, Node::verify_vdf_cpu", "src/ProofOfTime.cpp: get_output", "src/sha256_avx2.cpp, src/sha256_arm.cpp: recursive_sha256_*_x8, recursive_sha256_ni_x2"]}
{"id": "C71", "title": "The VDF output of an accepted block is sequential work since the first block", "statement": "If a node accepts a chain of blocks, the VDF output of the last one was reached from that of the first one by hashes one after the other, as many as the difference of their vdf_iters says, in intervals of the prescribed lengths with the prescribed blocks infused.", "quantifier": "every chain of blocks, every history of received proofs of time and finalised blocks", "why_tests_cant": "it is about what can be derived from arbitrary (also malicious) proofs and headers over a whole chain", "anchors": ["src/Node_verify.cpp: Node::verify, Node::verify_vdf", "src/Node_update.cpp: Node::update, Node::find_vdf_points", "src/Node.cpp: Node::find_vdf_points, get_infusion"]}
{"id": "C72", "title": "Whatever proofs of time arrive, a node goes on from those that are right", "statement": "For every order in which proofs of time arrive, the points a node chooses to build its next block on make a block that the node itself accepts, and once a right proof for the next interval was received there are such points.", "quantifier": "every sequence of received proofs (right, wrong, for other forks) and finalised blocks", "why_tests_cant": "one proof made by an attacker, at one moment, decides; the set of proofs is unbounded", "anchors": ["src/Node.cpp: Node::find_next_vdf_points, Node::find_vdf_point, Node::add_vdf_point", "src/Node_update.cpp: Node::update, Node::make_block"]}
{"id": "C73", "title": "What a timelord publishes is a valid proof for an interval it was asked for", "statement": "For every order of interval requests (also changed ones after a reorg), rounds of the VDF thread, queued updates, timers and stops, every proof of time a timelord publishes is for an interval that was requested, names the block that was requested to be infused, and passes verification.", "quantifier": "every sequence of requests and every interleaving of the VDF thread with the module thread", "why_tests_cant": "two threads share the history, the infusions and the pending requests; whether a request arrives before or after the thread has taken up a restart is a matter of timing", "anchors": ["src/TimeLord.cpp: TimeLord::handle, TimeLord::update, TimeLord::vdf_loop, TimeLord::stop_vdf, TimeLord::start_vdf"]}
{"id": "C74", "title": "A reorganisation leaves no trace", "statement": "After any history of arriving blocks (valid or not, in any order), switches between forks (also to forks from below the last committed block, also failed ones), commits, crashes and restarts, the node's tables, its map from heights to blocks and its count of blocks per farmer are exactly those of one chain of valid blocks from the genesis block, the chain of its current block, applied to empty tables. Two nodes on the same block agree on all of them, and a restart between operations changes nothing.", "quantifier": "every set of blocks with distinct hashes, every validity rule and every effect of blocks, every sequence of operations, every moment of a crash and version the tables are found at", "why_tests_cant": "what is left behind depends on the whole history of switches, failures and crashes, of which there is no bound", "anchors": ["src/Node.cpp: Node::fork_to, Node::apply, Node::revert, Node::reset, Node::commit, Node::get_fork_line, Node::add_fork", "src/Node_update.cpp: Node::update"]}
{"id": "C75", "title": "A reorganisation that fails leaves the node on the chain it was on", "statement": "When the node tries to switch to another known block, it ends on that block, or, if a block on the way is invalid, on the block and with the tables it had before, from where later switches work as if the attempt had not been made.", "quantifier": "every reachable state of the node, every fork and every position of the invalid block in it", "why_tests_cant": "the way back depends on where the fork branches off, on how much of it was applied and on what the node has stored", "anchors": ["src/Node.cpp: Node::fork_to, Node::get_fork_line, Node::reset", "src/Node_update.cpp: Node::update"]}
{"id": "C76", "title": "The blocks for a height come from enough peers", "statement": "When a syncing node asks the network for the blocks at a height, every block it is given is valid on its own, the replies counted come from at least min_sync_peers different peers, and if fewer than that many of the peers are dishonest, the block that the honest ones have is among those returned, whatever the order, delay, loss or content of the replies.", "quantifier": "all orders of replies, time-outs, peers that leave and return, all contents of replies, all choices of the peers that are asked", "why_tests_cant": "The result depends on the interleaving of replies of many peers, some of them hostile; a test tries a few orders.", "anchors": ["src/Router.cpp:Router::get_blocks_at_async", "src/Router.cpp:Router::process", "src/Router.cpp:Router::update", "src/Router.cpp:Router::on_return", "src/Node.cpp:Node::sync_result"]}
{"id": "C77", "title": "A fetched block is the one that was asked for", "statement": "Fetching a block by its hash gives the block with that hash, sent by a peer that was asked for it; it gives nothing only when all synced peers replied that they do not have it.", "quantifier": "all orders and contents of replies, all peers that come and go", "why_tests_cant": "Peers may reply with anything at any time.", "anchors": ["src/Router.cpp:Router::fetch_block_async", "src/Router.cpp:Router::process", "src/Node.cpp:Node::fetch_block", "src/Node.cpp:Node::fetch_result"]}
{"id": "C78", "title": "A message is passed on once, and only when it may be", "statement": "However often and from whichever peers a message arrives, it is handed to the node and passed on to other peers at most once for as long as the cache of hashes remembers it; what is handed over is well-formed and correctly signed, what is passed on before verification is covered by a proof the node has verified (one block per proof of space, one proof of time per verified proof of time), and a peer is sent a message at most as often as it was passed on; a peer that has a message, because it showed it to us or was sent it, is not sent it again while the cache for that peer remembers it; VDF points are taken from master nodes only.", "quantifier": "for every sequence of messages from the own node and from peers, notes, connections made and lost, updates and send rounds, and every shuffle", "why_tests_cant": "Depends on every interleaving of receipts from several peers with publications and cache trimming; loops and amplification appear only in long histories.", "anchors": ["src/Router.cpp: relay_msg_hash", "src/Router.cpp: receive_msg_hash", "src/Router.cpp: on_block", "src/Router.cpp: on_vdf", "src/Router.cpp: send_to", "src/Router.cpp: send"]}
{"id": "C79", "title": "Own messages reach every connected peer", "statement": "A message of this node itself (a transaction of its wallet, a block or proof of its farmer, a proof of time of its timelord) is sent to every connected peer it is meant for within the relay time, unless that peer has shown that it has it.", "quantifier": "for every history before, every peer whose connection stays, every later sequence of events and every shuffle", "why_tests_cant": "The loss needs two messages to be queued for a peer at exactly the same microsecond; tests with few messages do not hit it.", "anchors": ["src/Router.cpp: send_to", "src/Router.cpp: broadcast", "src/Router.cpp: send", "include/mmx/Router.h: send_queue"]}
{"id": "C80", "title": "A mistyped address is never taken for another one", "statement": "A string that differs from the string of an address in up to three characters anywhere, or in up to four characters after \"mmx1\", or in two exchanged characters, is refused (unless it is the same address in upper case).", "quantifier": "for every address and every such string", "why_tests_cant": "There are more than 2^256 addresses and about 10^11 ways to mistype four characters of each.", "anchors": ["src/addr_t.cpp: addr_t::from_string", "src/addr_t.cpp: addr_t::to_string"]}
{"id": "C81", "title": "An address has one string", "statement": "A string is accepted as an address only if it is, up to case, the string that is shown for that address; strings made for other networks are refused.", "quantifier": "for every string", "why_tests_cant": "All strings of 62 characters; tests try only strings made by the same code.", "anchors": ["src/addr_t.cpp: addr_t::from_string", "src/addr_t.cpp: addr_t::to_string"]}
{"id": "C82", "title": "Contract source is read in the customary order", "statement": "An expression of a contract without parentheses means what the customary order of operators of C and JavaScript says: the compiler makes the same binary of it as of the expression with parentheses around every operand; assignments are read from right to left.", "quantifier": "for every program, whatever the size and nesting of its expressions", "why_tests_cant": "There are infinitely many expressions, and an operator that is read in the wrong order gives a binary that works for most inputs.", "anchors": ["src/vm/Compiler.cpp: Compiler::recurse_expr", "src/vm/Compiler.cpp: rank_map"]}
{"id": "C83", "title": "A compiled contract does what its source says", "statement": "Calling a function of a compiled contract returns the value that the source defines for the arguments (unless the call runs out of gas), and fails when the source fails: overflow with catching on, division by zero, a failed assert, operands of the wrong type, more than 1000 nested calls.", "quantifier": "for every program, function, arguments, gas limit and state of the chain", "why_tests_cant": "Programs and arguments are unbounded; a wrong jump, a reused temporary or a missing return shows only for particular programs and inputs.", "anchors": ["src/vm/Compiler.cpp: Compiler::compile", "src/vm/Compiler.cpp: Compiler::recurse", "src/vm/Compiler.cpp: Compiler::recurse_expr", "src/vm/Engine.cpp: Engine::step", "src/Node_api.cpp: Node::call_contract"]}
{"id": "C84", "title": "A proof of space is accepted if and only if it is one", "statement": "If a node accepts a proof of space for a challenge, difficulty and height, then its 256 starting values, in the given order, fit together pairwise through all eight tables under the hash functions of the plot, the final value lies in the range asked for, plot id, size, challenge, difficulty and score are right, the plot passes the filter and the quality is below the limit of that difficulty. Conversely such a proof is accepted, provided that no other proof can be made of the same values.", "quantifier": "all hash functions, chain parameters, proofs, challenges, difficulties, heights, and all ways in which std::sort may order equal entries", "why_tests_cant": "Tests try a few proofs of a few plots; a forged proof is a choice out of 2^8192 lists, and the intermediate tables depend on all of them.", "anchors": ["src/pos/verify.cpp: compute, verify, check_post_filter", "src/pos/verify_full.cpp: compute_full", "src/Node_verify.cpp: verify_proof, verify_proof_impl"]}
{"id": "C85", "title": "All nodes agree about a proof of space", "statement": "The verdict about a proof does not depend on the node that checks it: not on the order in which its sort leaves entries that compare equal, nor on the order in which threads finish, as long as no two proofs made of the values give the same data (a hash collision).", "quantifier": "all proofs, parameters, sorts and thread schedules", "why_tests_cant": "Every test machine has one sort implementation and one schedule per run; a disagreement splits the chain.", "anchors": ["src/pos/verify.cpp: compute, verify, check_post_filter", "src/pos/verify_full.cpp: compute_full", "src/Node_verify.cpp: verify_proof, verify_proof_impl"]}
{"id": "C86", "title": "What a harvester publishes is accepted by the nodes", "statement": "For a plot whose tables belong to its id, each proof that the harvester publishes for a challenge passes the check of the node for that challenge and difficulty (partials: for the difficulty of the pool), before and after the hard fork, with or without stored meta data, compressed or not; and once signed by the farmer the response passes the whole check of the node unless it is too old. The exception are harvesters whose name has 1024 characters or more: their responses are not signed.", "quantifier": "all plots, challenges, difficulties, pools, hash functions, signature schemes, sorts and thread schedules", "why_tests_cant": "A winning proof is rare; a mismatch between search and check costs a block reward and would show up once in months.", "anchors": ["src/Harvester.cpp: lookup_task, send_response", "src/pos/Prover.cpp: get_qualities, get_full_proof", "src/Farmer.cpp: handle(ProofResponse)", "src/ProofResponse.cpp: is_valid, validate", "src/Node_verify.cpp: verify(ProofResponse)"]}
{"id": "C87", "title": "A harvester finds every winning proof in its plots", "statement": "If an entry of a plot gives a proof that nodes would accept for a challenge, the harvester publishes it. (False: if the park at which the search begins starts with a value of the range asked for, entries of the park before it are not looked at; and the search gives up after a hundred parks. It holds if no park but the first begins with a value of the range, all parks can be read and the search ends.)", "quantifier": "all plots, challenges and entries", "why_tests_cant": "A missed proof leaves no trace; it depends on where the values of a challenge fall in a table of billions of entries.", "anchors": ["src/pos/Prover.cpp: get_qualities", "include/mmx/pos/Prover.h: initial_y_shift", "src/Harvester.cpp: lookup_task"]}
{"id": "C88", "title": "The starting values of a plot of size k are below 2^k", "statement": "A proof of space for a plot of size k is made of starting values below 2^k, so that a plot of that size has only 2^k of them. (False for the check of the node, which accepts any 32-bit values; true of what a harvester publishes.)", "quantifier": "all proofs, plots and challenges", "why_tests_cant": "Proofs in tests come from real plots, which never contain larger values.", "anchors": ["src/pos/verify.cpp: compute_f1, verify", "src/Node_verify.cpp: verify_proof_impl", "src/pos/Prover.cpp: get_full_proof"]}
{"id": "C89", "title": "A node does not split its votes", "statement": "Two votes of a node for different blocks at the same height are more than one block interval apart.", "quantifier": "every sequence of blocks, votes and proofs that arrive, every schedule of updates, every choice of validators and farmer keys", "why_tests_cant": "it concerns all interleavings of reorganisations and updates, whatever the blocks are", "anchors": ["src/Node.cpp: Node::vote_for_block", "src/Node_update.cpp: Node::update"]}
{"id": "C90", "title": "A node votes only for blocks from the best proof it knows", "statement": "When a node publishes a vote for a block, the proof of the block is the best one among all proofs the node knows for the challenge of the block.", "quantifier": "every sequence of blocks, votes and proofs that arrive and every schedule of updates", "why_tests_cant": "all orders in which proofs and blocks can arrive", "anchors": ["src/Node_update.cpp: Node::update", "src/Node.cpp: Node::find_best_proof, Node::vote_for_block"]}
{"id": "C91", "title": "A node makes one block per proof", "statement": "A node never makes and signs two blocks from the same proof of space.", "quantifier": "every sequence of blocks, votes and proofs that arrive and every schedule of updates and restarts", "why_tests_cant": "all histories, with reorganisations between the attempts", "anchors": ["src/Node_update.cpp: Node::update, Node::make_block"]}
{"id": "C92", "title": "Own blocks carry the best proofs, in an order every node accepts", "statement": "The block a node makes contains the best proofs the node knows for the challenge, as many as are allowed, and passes the check of the number, order, uniqueness and hash of the proofs. Nodes that were sent the same proofs know the same best proof, whatever order the proofs came in.", "quantifier": "every set of proofs, every order of arrival, every history of the node", "why_tests_cant": "all permutations of all sets of proofs", "anchors": ["src/Node_verify.cpp: Node::add_proof, Node::verify_proof", "src/Node_update.cpp: Node::make_block, Node::verify_proofs", "src/Node.cpp: Node::find_best_proof"]}
{"id": "C93", "title": "A node votes only with its own farmers, and only where they are validators", "statement": "Every vote a node sends is with the key of a farmer of its own that has shown a valid proof over an open connection, and that farmer made one of the blocks on the same chain, in the window before the block that is voted for, which decides who the validators are.", "quantifier": "every sequence of blocks, votes and proofs that arrive and every schedule of updates, with any answers from outside", "why_tests_cant": "all histories and all trees of blocks", "anchors": ["src/Node.cpp: Node::vote_for_block, Node::get_validators", "src/Node_verify.cpp: Node::add_proof", "src/Node_update.cpp: Node::update, Node::verify_block_proofs"]}
{"id": "C94", "title": "Own blocks contain verified proofs only, and a node that is syncing stays quiet", "statement": "Every proof of space in a block that a node makes has passed the check of proofs, by itself or as the first proof of a block. While a node is not in sync it neither votes nor makes blocks.", "quantifier": "every sequence of blocks, votes and proofs that arrive and every schedule of updates, with any answers from outside", "why_tests_cant": "all histories", "anchors": ["src/Node_update.cpp: Node::verify_proofs, Node::verify_block_proofs, Node::update, Node::make_block", "src/Node_verify.cpp: Node::add_proof"]}
{"id": "C95", "title": "Tokens of a fixed price liquid token can be sold back at the stated value", "statement": "For the liquid token contract, whatever sequence of buys, sales, withdrawals, transfers of ownership and deposits has happened, a holder of n tokens in circulation can call sell and gets n / price * (1 - ratio / 1000), rounded down, and the tokens are burnt; the owner can withdraw at most the owner part of what buyers paid.", "quantifier": "all prices, ratios, currencies, histories of calls by any users with any amounts, all holders and amounts in circulation", "why_tests_cant": "The backing must hold after every interleaving of roundings of buys, sales and withdrawals.", "anchors": ["src/contract/fixed_price_liquid_token.js: buy, sell, withdraw, recover", "src/vm/Engine.cpp: send, mint"]}
{"id": "C96", "title": "Sold tokens are minted to the buyer only, at the price", "statement": "In the fixed price token contracts every mint belongs to a buy: the tokens go to the caller, who has deposited the right currency, and their number is amount * price / 2^64 rounded down. What buyers paid to the fixed price token leaves the contract only in calls by the owner, to the owner.", "quantifier": "all prices, currencies, histories of calls, from contract version 1 on", "why_tests_cant": "It must hold for all calls and all amounts, including those that overflow.", "anchors": ["src/contract/fixed_price_token.js", "src/contract/fixed_price_liquid_token.js"]}
{"id": "C97", "title": "The horse race contract can always pay, and its price grows with the pot", "statement": "The pots of all horses together never exceed what the contract holds in its currency, and are exactly what was bet less what was paid out. The price (the square root by 20 steps of Newton in integers) never falls when the pot grows and never fails or overflows.", "quantifier": "all numbers of horses, precisions, token scales, histories of buys, sales, transfers and deposits; all pots below 2^190", "why_tests_cant": "Monotonicity of an iteration with rounding and conservation over all histories cannot be enumerated.", "anchors": ["src/contract/crypto_horse_race.js: calc_price, buy_horse, sell_horse, transfer"]}
{"id": "C98", "title": "Round trips in the horse race do not pay", "statement": "Over any sequence of buys, sales and transfers by any users, if in the end at least as many tokens of each horse exist as in the beginning, the contract has not paid out more than was paid in; the same holds for the pot of each horse.", "quantifier": "all states the contract can reach, all sequences of calls and amounts, all roundings", "why_tests_cant": "An attacker may split and order trades in any way; a profitable sequence need not be among those tested.", "anchors": ["src/contract/crypto_horse_race.js: get_buy_price, get_sell_price, buy_horse, sell_horse"]}
{"id": "C99", "title": "get_history is complete and exact", "statement": "get_history returns exactly the confirmed payments of the given addresses between the two heights, of the given kind and in the given currencies, each once, newest first. With a limit n it returns exactly those entries of which fewer than n are in later blocks, so that no block is cut.", "quantifier": "all logs of payments, sets of addresses, filters and limits, however the rows are spread over chunks and addresses", "why_tests_cant": "Rows are read in chunks of 100 for each address with a bound per address and cut after merging; whether nothing is lost depends on how rows of any number of addresses and heights fall together.", "anchors": ["src/Node_api.cpp: Node::get_history, filter_txio", "include/mmx/table.h: find_last_range", "interface/query_filter_t.vni"]}
{"id": "C100", "title": "get_history with a memo is complete and exact", "statement": "With a memo in the filter, get_history returns exactly the confirmed payments that match the filter and have that memo, each once, newest first, and a limit does not cut a block.", "quantifier": "all logs, addresses, memos, filters and limits", "why_tests_cant": "The index by memo is a second table that must agree with the log after every block; a limit that falls within a block of more than 100 payments is not met by small tests.", "anchors": ["src/Node_api.cpp: Node::get_history_memo", "src/Node.cpp: Node::apply (memo_log)"]}
{"id": "C101", "title": "The history of an address explains its balance", "statement": "On every chain of valid blocks, for every address and currency, the amounts that get_history shows as received are the balance of the address plus the amounts it shows as spent.", "quantifier": "all chains of valid blocks, addresses and currencies, and all filters that admit the currency", "why_tests_cant": "Balances and log are written by different code for all inputs, outputs, fees and rewards of every block; equality must hold after any history.", "anchors": ["src/Node.cpp: Node::apply", "src/Block.cpp: get_inputs, get_outputs", "src/Node_api.cpp: get_history, get_balance"]}
{"id": "C102", "title": "The reported liquidity of a user is what the swaps have for the user", "statement": "The liquidity that the node reports for a list of addresses (get_swap_liquidity_by) is, for every swap and both of its tokens, the sum of what the swap contract itself has recorded for these addresses; swaps that are not reported have nothing for them; the query is answered.", "quantifier": "every history of deployments, calls of all users by whatever way, and payments; every list of addresses", "why_tests_cant": "The node keeps its own record from the arguments of operations, separate from the variables of the contract; whether both agree depends on the whole history of calls of all methods.", "anchors": ["src/Node.cpp: Node::apply (swap_liquid_map)", "src/Node_api.cpp: Node::get_swap_liquidity_by", "src/contract/swap.js"]}
{"id": "C103", "title": "Queries of offers show the offers that are there, as they are", "statement": "get_recent_offers and get_recent_offers_for return, newest first and none twice, offers to anybody that are not obvious frauds, with the currencies that were asked for and at least the amount that was asked for, each with its current terms and balances and the least amount that buys all of it; no more than limit, and none that is newer than a returned one is missing. get_offers returns all since a height, get_offers_by all of the given owners.", "quantifier": "every chain of blocks with offers, calls and payments; all currencies, limits, heights and owners", "why_tests_cant": "The answer is assembled from tables that were written block by block over the whole history, by rounds of reading that depend on what was found; one strange offer anywhere in the chain can change the answer for all.", "anchors": ["src/Node.cpp: Node::apply (offer_index, contract_log, owner_map)", "src/Node_api.cpp: Node::get_offers, get_offers_by, fetch_offers, get_recent_offers, get_recent_offers_for, get_offer", "src/offer_data_t.cpp", "include/mmx/table.h: find_last_range, find_range"]}
{"id": "C104", "title": "The trade history is that of the trades that happened", "statement": "get_trade_history and get_trade_history_for report, last first, the trades that happened with offers since a height and with the given currencies, each with the height, the offer and the amounts that changed hands.", "quantifier": "every chain of blocks with offers, trades and acceptances by transactions or other contracts; all currencies, limits and heights", "why_tests_cant": "Whether the record that the node derives from the arguments of operations is what the contracts did depends on all calls of all users and on the order within a block.", "anchors": ["src/Node.cpp: Node::apply (trade_log, trade_index)", "src/Node_api.cpp: Node::get_trade_history, get_trade_history_for, make_trade_entries", "src/contract/offer.js", "src/offer_data_t.cpp"]}
{"id": "C105", "title": "The ranking of farmers counts the blocks of the chain", "statement": "get_farmer_ranking lists the farmers of the blocks of the current chain, each once, with the number of their blocks in it, those with more blocks first; a limit cuts the list, a negative one does not.", "quantifier": "every history of blocks that are applied, fail while applied, are reverted by forks of whatever depth, and of restarts of the node at whatever height; every order of farmers with equal counts", "why_tests_cant": "The counts are kept in memory and adjusted by each applied and reverted block; whether they stay right depends on the whole history of forks, failures and restarts.", "anchors": ["src/Node.cpp: Node::apply, Node::revert, Node::update_farmer_ranking", "src/Node_api.cpp: Node::get_farmer_ranking"]}
{"id": "C106", "title": "The blocks and rewards reported to a farmer are those in the chain", "statement": "get_farmed_blocks returns the blocks of the current chain from a height on that were farmed with the given keys, the newest first up to the limit, or all of them from the oldest on if the limit is negative. get_farmed_block_summary gives their number, the last height, the sum of their rewards and the sum for each reward address.", "quantifier": "every history of applied, failed and reverted blocks and restarts; all sets of keys, heights and limits", "why_tests_cant": "The answer is merged from the rows of several keys, each cut by the limit, of a table that follows all forks.", "anchors": ["src/Node.cpp: Node::apply (farmer_block_map), Node::revert", "src/Node_api.cpp: Node::get_farmed_blocks, Node::get_farmed_block_summary", "interface/farmed_block_info_t.vni"]}
{"id": "C107", "title": "The estimate of a swap trade is exact", "statement": "If a trade is executed on the state that get_swap_trade_estimate was asked about, with the same amount and number of iterations, it pays the trader exactly the amount told and leaves exactly the fee told, whoever sends it, wherever it pays to and at whatever height; it fails exactly if the node gave no estimate or the minimum asked for is above it. A trade that the wallet makes deposits the given amount of the given currency and goes in the direction in which that currency is paid in; any other currency is refused.", "quantifier": "every reachable state of every swap, every amount, direction, number of iterations, minimum, sender, receiver and height", "why_tests_cant": "The estimate runs the contract as a query, without crediting the deposit, for another user and height; that nothing of this changes the result must hold for all states of the pools.", "anchors": ["src/Node_api.cpp: Node::get_swap_trade_estimate, Node::call_contract", "src/Wallet.cpp: Wallet::swap_trade", "src/contract/swap.js: trade"]}
{"id": "C108", "title": "Liquidity is worth what the node says", "statement": "Who takes out all their liquidity of a swap receives, in each token, exactly what get_swap_equivalent_liquidity and get_swap_fees_earned told together for that state, and nobody else receives anything; if the node tells a worth and the lock has ended, taking it out succeeds. The operations that the wallet makes for the same amounts pay the same.", "quantifier": "every reachable state of every swap, every user, height and contract address", "why_tests_cant": "The worth is found with a dry run that sends nothing and ignores the lock; that it moves the pools as the real run does must hold for all states, pools and fee accounts.", "anchors": ["src/Node_api.cpp: Node::get_swap_equivalent_liquidity, Node::get_swap_fees_earned", "src/Wallet.cpp: Wallet::swap_rem_liquid", "src/contract/swap.js: rem_all_liquid, get_earned_fees"]}
{"id": "C109", "title": "The sums told about a swap are those of its pools and trades", "statement": "get_swap_info tells the reserves of all pools together, and fees paid less fees claimed is what providers can still claim; the contract holds at least both. The volume told in total, for the last 8640 and for the last 60480 blocks is what all trades, or those after the height that many blocks ago, paid out in that token, plus the fees they left, modulo 2^128.", "quantifier": "every history of a swap from its deployment, every height of the node", "why_tests_cant": "The volume is the difference of a counter and of its value stored at an old height, for all histories and heights.", "anchors": ["src/Node_api.cpp: Node::get_swap_info", "src/contract/swap.js"]}
{"id": "C110", "title": "Offers made and accepted with the wallet keep their terms", "statement": "While its owner does not change the price, an offer made with the wallet, of an amount bid for an amount asked, never gives anybody more than bid for each asked, in proportion to what they pay after refunds. Accepting it with the wallet buys all that is left for exactly the amount that the node tells, and nothing less buys all of it. For a new offer that amount is at least what was asked, at most one unit more if the square of what was asked is at most 2^64 times the bid, and exactly what was asked if the price has no remainder.", "quantifier": "all amounts, currencies and owners; every history of trades, acceptances, payments, withdrawals and cancellations of the offer", "why_tests_cant": "The price is stored as a fraction of 2^64, rounded down, and used in both directions; that rounding never favours the taker must hold for all amounts and histories.", "anchors": ["src/Wallet.cpp: Wallet::make_offer, Wallet::accept_offer, Wallet::offer_trade", "src/offer_data_t.cpp: get_ask_amount", "src/Node_api.cpp: Node::get_offer", "src/contract/offer.js"]}
{"id": "C111", "title": "Balances told by the node are the balances of the chain", "statement": "What the node reports as the balance of an address, as the total of several addresses (each counted once however often it is named), as the balances per currency, or as the balances of a contract (all locked or all spendable), is what the last block that changed it left; currencies with nothing have no entry. A query without a list of currencies is complete when its limit is negative or not smaller than the number of currencies the address ever had; with any limit it never reports more than there is.", "quantifier": "all histories of changed balances, all lists of addresses and currencies, all limits, all currencies", "why_tests_cant": "The rows are read in ranges of a sorted table with a limit and added up over addresses; exactness must hold for all tables and queries.", "anchors": ["src/Node_api.cpp: Node::get_balance, Node::get_total_balance, Node::get_total_balances, Node::get_all_balances, Node::get_contract_balances", "include/mmx/table.h: find_range"]}
{"id": "C112", "title": "The balances shown by the wallet add up", "statement": "For every currency the wallet shows as spendable what the node reported last less what was sent since and is still open, as reserved what is open, as locked what its contracts hold and its liquidity is worth, and as total the sum; if no more is open than there is, the total is what the node reported plus what is locked. With nothing open this is, for each token of its list, what the addresses and contracts hold on the chain.", "quantifier": "all histories of a wallet (reports of the node, transactions sent, expired or confirmed, resets), all chains, all currencies", "why_tests_cant": "The wallet subtracts with clamping and keeps pending transactions in maps that are pruned by several rules; that the parts add up must hold after every history.", "anchors": ["src/Wallet.cpp: Wallet::get_balances, Wallet::get_balance, Wallet::update_cache", "include/mmx/ECDSA_Wallet.h: update_cache, update_from"]}
{"id": "C113", "title": "Lists of contracts and the history of a contract are those of the chain", "statement": "The contracts that the node lists as deployed by some addresses are exactly those that they deployed with transactions that took effect, in the order of the chain, optionally only those of one kind. Those listed as owned by them are exactly the ones they own. The history of a contract has exactly the calls of it that transactions which took effect name, oldest first or newest first, up to the limit.", "quantifier": "all chains (any blocks, transactions, failed or not, deployed contracts and operations), all addresses, kinds and limits", "why_tests_cant": "Rows are numbered by a counter shared with payments and found as ranges of a sorted table; that nothing is overwritten, missed or out of order must hold for every chain.", "anchors": ["src/Node.cpp: Node::apply", "src/Node_api.cpp: Node::get_contracts_by, Node::get_contracts_owned_by, Node::get_exec_history", "include/mmx/table.h: find_range, find_last_range"]}
{"id": "C114", "title": "A node that says it is synced has asked for every block", "statement": "A node that syncs asks its peers for the blocks at every height after its last committed one. When it reports that it is synced, it has found the end of the chain once more than the number of retries, with pauses of half a block interval between, and every height below the end has been answered with blocks. While it syncs it commits a block only when its height has been answered. It never asks for height 0, and it does not stop before the end: after every update it is synced, or a request is outstanding, or it holds as many blocks as it may, or it waits before it looks for the end again.", "quantifier": "all starting heights, settings and sequences of answers, failures, updates, forks, restarts and reverts, in any order", "why_tests_cant": "Dozens of requests are outstanding at once; their answers and failures arrive in any order, mixed with updates, restarts and blocks that do not connect.", "anchors": ["src/Node.cpp: start_sync, sync_more, sync_height, sync_result, revert_sync", "src/Node_update.cpp: update"]}
{"id": "C115", "title": "A pool accepts exactly sound partials and gets the blocks of the plots it pays for", "statement": "verify_partial accepts exactly the partials whose proof is valid for a known challenge and that are signed with the key of the plot over all that they say; for a pool, exactly when the plot was made for the plot NFT that the partial names and this plot NFT names the pool. A signature for one partial is not good for one with another height, contract, account, lookup time or proof. When the pool accepts a partial, a block won with that plot pays the pool, whatever account the farmer names, until the unlock height or for the next 256 blocks when nobody has asked to unlock. What the harvester finds and the farmer signs is accepted, and credited to the farmer's address. What the node tells about a plot NFT is what the rewards follow.", "quantifier": "all partials, plot NFTs, targets, heights and all calls of the plot NFT by anybody after the partial", "why_tests_cant": "Two different partials with the same text, or a sequence of calls that moves a reward away, are single cases among all texts and all histories.", "anchors": ["src/Partial.cpp: calc_hash", "src/Node_api.cpp: verify_partial, verify_plot_nft_target, get_plot_nft_info, get_plot_nft_target", "src/Node_validate.cpp: validate", "src/Farmer.cpp: handle", "src/Harvester.cpp: lookup_task", "src/contract/plot_nft.js"]}
{"id": "C116", "title": "The vote on the block reward follows the medians of the prices", "statement": "The vote that a farmer's node puts into its blocks follows the median price of gold and the median price of MMX over the sources whose file is at most one day old and usable: -1 when an ounce of gold costs over 1% more MMX than the target, 1 when it costs over 1% less, else 0. It depends only on the range in which more than half of the prices of each kind lie, so that no minority of sources can turn it. Without usable prices it is 0, and it is always one that other nodes accept. A source is asked only when its file is missing or too old, not twice at a time and not again after a failure before the hourly timer.", "quantifier": "all contents and ages of the files, all balances of the swap, all sequences of updates, answers, failures and timers", "why_tests_cant": "Prices are arbitrary numbers from outside and arrive in any order with any failures; a test sees some of them.", "anchors": ["src/Node_control.cpp: update_control, update_control_hourly, get_median", "src/Node_validate.cpp: validate"]}
{"id": "C117", "title": "What the node tells about the storage of a contract is what it was at that height", "statement": "For every height, read_storage_var, read_storage_entry_var, read_storage_field, dump_storage, read_storage_array, read_storage_map and read_storage_entry_* give what the contract had stored after the block of this height: the value of the last write up to there, nothing if there was none, and nothing of blocks that were reverted or came later or of other contracts. Dumps and arrays are complete, in order, and have nothing twice.", "quantifier": "all histories of blocks with any writes and reverts, all contracts, addresses, keys and heights", "why_tests_cant": "A wrong version or a row of a neighbouring contract shows only for particular keys, histories and heights.", "anchors": ["src/Node_api.cpp: read_storage, dump_storage, read_storage_var, read_storage_entry_var, read_storage_field, read_storage_array, read_storage_map", "src/vm/StorageDB.cpp: read_ex, find_range, find_entries, read_array, lookup", "src/Node.cpp: apply, revert"]}
{"id": "C118", "title": "A locked wallet signs nothing without the passphrase, and is locked again", "statement": "As long as nobody gives the right passphrase of an account, every request to sign a message, to sign or complete a transaction, or to send, deploy, execute or deposit fails and changes nothing in the account. Giving the passphrase with a request leaves the account locked afterwards, whether the request succeeds or fails. Only a right passphrase unlocks, and then exactly the keys of this passphrase are in memory. With a timeout, an account with a passphrase is unlocked only for that long after it was unlocked or a transaction was sent.", "quantifier": "all histories of requests with any options, passphrases and times; all ways to derive keys", "why_tests_cant": "Keys left in memory after one of many paths, one that throws in particular, are not seen by checking some of them.", "anchors": ["include/mmx/ECDSA_Wallet.h: lock, unlock, is_locked, sign_off, complete, sign_msg, find_keypair", "src/Wallet.cpp: lock, unlock, send_off, send, send_many, send_from, deploy, execute, deposit"]}
{"id": "C119", "title": "What the wallet signs and sends is what was asked for, and the node accepts the signatures", "statement": "A transaction made by the wallet has exactly the outputs, operations and contract asked for. The node accepts its signatures if and only if the account has the keys of the sender, of the owners of all inputs and of the users of all operations. It is handed to the node only if it was to be sent and all its inputs are signed; if the request fails nothing was sent, logged or taken off the balances. The fee the node takes at least is within the limit in the transaction.", "quantifier": "all requests, options, states of the wallet, contracts and choices of inputs; all signature schemes", "why_tests_cant": "Indices of signatures, shared between inputs and operations with the same owner, depend on the whole transaction; tests cover few combinations.", "anchors": ["include/mmx/ECDSA_Wallet.h: sign_off, sign_msg, complete", "src/Wallet.cpp: send, send_many, send_from, deploy, execute, deposit, send_off", "src/Transaction.cpp: is_signed, is_valid, get_solution, calc_cost", "src/Node_validate.cpp: validate, execute", "src/contract/PubKey.cpp: validate", "src/contract/MultiSig.cpp: validate"]}
{"id": "C120", "title": "A peer counts as a node only with a signature of its key, and a banned address stays out", "statement": "A connection counts as that of a node only after the other side answered the challenge drawn for this very connection with a signature by the key of the node, and two open connections never count as the same node. A wrong answer closes the connection. The peers that are taken for synced said so in their last answer. Every open connection has exactly one entry in the list of peers, and none stays when it is closed. When a connected address is kicked, or is on the block list, all its connections are closed and none opens again.", "quantifier": "all histories of connections in both directions, answers (true or false, asked for or not), tasks, timers, kicks and checks; all keys, signature schemes and name resolutions", "why_tests_cant": "the peers choose order and contents of the messages, and disconnecting is finished later in a task; a test sees a few orders", "anchors": ["src/Router.cpp: Router::on_connect, Router::on_disconnect, Router::on_return, Router::on_request, Router::ban_peer, Router::kick_peer, Router::find_peers", "include/mmx/Router.h: peer_t"]}
{"id": "C121", "title": "Whom the node connects to, keeps and tells others of", "statement": "By itself the node begins connections only to the fixed peers and to known, told or seed hosts with a usable address that is neither banned nor its own nor that of a peer. It never dials the same host name twice at once, nor more than twice as many hosts as peers are wanted. After each turn at most one more synced outbound peer than wanted is connected, and at most as many unsynced ones. Connections that were silent for longer than the timeout, and only these (and inbound ones past their time), are closed. Others are told of distinct known addresses that are not local, at most as many as they asked for, and of all if there are less.", "quantifier": "all histories of connections, answers, timers and kicks; all configurations; all random choices", "why_tests_cant": "depends on all that peers told before, on the random choice and on connections that are just opened or closed", "anchors": ["src/Router.cpp: Router::connect, Router::connect_to, Router::update, Router::get_peers, get_subset, is_valid_address, is_public_address, Router::on_return"]}
{"id": "C122", "title": "A farmer reports the space of its harvesters, each once, and counts each partial once", "statement": "The totals of the farm info (bytes, effective bytes, balance, plots of each size, bytes of each harvester name, plots of each pool contract) are the sums over the harvesters that reported within the timeout, each with its last report. The pools listed are those of these harvesters, with the last difficulty the pool gave. For each contract every partial that was answered or could not be sent is counted exactly once, as valid with its points, or as failed with its difficulty and under exactly one error. The reward address is the configured one, else the first the wallet gave, and never changes.", "quantifier": "all histories of reports, timeouts, answers of pools and answers of the wallet; all contents of reports; all contracts", "why_tests_cant": "reports overwrite each other, expire and overlap in any order, and counts are kept over the whole run", "anchors": ["src/Farmer.cpp: Farmer::get_farm_info, Farmer::update, Farmer::handle(FarmInfo), Farmer::handle(Partial), Farmer::get_partial_diff, Farmer::query_difficulty", "src/Harvester.cpp: Harvester::get_farm_info"]}
{"id": "C123", "title": "A farmer signs blocks and votes with the key they name and changes nothing it should not", "statement": "A farmer signs a block or a vote exactly if the wallet gave it the farmer key that the (first) proof or the vote names, at any time before. A signed block has a valid signature, hash and content hash, and differs from the block that was asked for only in its nonce, a reward address that was missing (set to that of the farmer) and the reward account if there is a reward contract (set to that of the farmer). It is one that nodes can accept.", "quantifier": "all histories of the farmer, all blocks and votes, all keys, all signature schemes whose signatures verify", "why_tests_cant": "depends on when the wallet gave which keys and addresses, and must hold for all blocks", "anchors": ["src/Farmer.cpp: Farmer::sign_block, Farmer::sign_vote, Farmer::get_skey, Farmer::update, Farmer::main", "src/BlockHeader.cpp: BlockHeader::is_valid, BlockHeader::validate"]}
{"id": "C124", "title": "Transactions are found by id exactly if they are in the chain", "statement": "A transaction that is asked for by its id is found exactly if it is in a block of the present chain (or, if pending ones are asked for, in the pool or the queue, in this order), and what is returned is that transaction. Its height, time and block are those of the block of the chain that holds it, also if it is in other blocks outside of the chain. The ids at a height, since a height and the last N ids are those of the blocks of the chain. All this holds after any switches between chains, blocks applied again from the file, and crashes.", "quantifier": "all histories of blocks applied, blocks stored beside the chain, reverts to any height and crashes that leave any remains in the file; all ids, heights and limits", "why_tests_cant": "offsets into the file are written in two ways and reverted with the chain, which tests see for a few chains only", "anchors": ["src/Node.cpp: Node::apply, Node::write_block, Node::read_block, Node::revert", "src/Node_api.cpp: Node::get_transaction, Node::get_tx_height, Node::get_tx_ids, Node::get_tx_ids_at, Node::get_tx_ids_since, Node::get_tx_info_for", "src/Transaction.cpp: Transaction::get_tx_index", "src/Node_validate.cpp: duplicate tx"]}
{"id": "C125", "title": "Accounts of the wallet keep their keys and their numbers", "statement": "Whatever is done with the accounts of a wallet (create, import, new wallet, remove, set the number of addresses, failed attempts, restarts), no key file is ever lost or gets another seed, and exporting an account gives the seed that the account signs with. An account that was created or imported is listed under a new number with its key, and all other accounts are as before; one that was removed is no longer listed and all others are as before. After a restart of the wallet the same accounts are listed under the same numbers with the same keys.", "quantifier": "all histories of calls with any accounts, key files, seeds, passphrases and numbers, with restarts anywhere; all key files at the start", "why_tests_cant": "two lists, one in memory and one in the config file, must stay aligned over any order of calls and restarts", "anchors": ["src/Wallet.cpp: Wallet::main, Wallet::add_account, Wallet::create_account, Wallet::create_wallet, Wallet::import_wallet, Wallet::export_wallet, Wallet::remove_account, Wallet::set_address_count, Wallet::get_account", "include/mmx/ECDSA_Wallet.h: ECDSA_Wallet::unlock"]}
{"id": "C126", "title": "The reward for the VDF goes to the timelord that did most, once per interval", "statement": "At the end of each interval, and only there, a block pays the fixed reward for the VDF to the address that is named most often by the blocks of the interval (ties are broken by a hash), and each block counts for exactly one payout; up to any height exactly the reward times the number of ended intervals is paid. What a node makes itself passes the checks of the others. The points of an accepted block lead from the VDF output of the block before to its own, and the addresses that a block names are those of who computed its points.", "quantifier": "all chains of blocks with any named addresses, proofs and forks beside them; all intervals, rewards and sets of known points", "why_tests_cant": "the choice depends on all blocks of an interval and on ties, and the sum on the whole chain", "anchors": ["src/Node.cpp: Node::get_vdf_reward_winner, Node::find_vdf_points", "src/Node_validate.cpp: Node::validate (vdf_reward_payout)", "src/Node_update.cpp: Node::make_block, Node::verify_block_proofs", "src/Block.cpp: Block::get_outputs", "src/BlockHeader.cpp: BlockHeader::is_valid"]}
{"id": "C127", "title": "Signatures of several parties are merged without loss", "statement": "Merging a transaction with the same one signed by another party gives each input its own solution if it has one and else that of the other; no solution is lost or moved to another input, and nothing else of the transaction changes. After merging the copies of any number of parties, in any order, the transaction counts as signed exactly if every input was signed by some party. A transaction that counts as signed has all signatures that it needs.", "quantifier": "all transactions, all numbers of inputs and parties, all solutions shared by inputs in any way", "why_tests_cant": "indices into two lists are translated while one list grows, for any sharing of solutions", "anchors": ["src/Transaction.cpp: Transaction::merge_sign, Transaction::is_signed, Transaction::get_solution"]}
{"id": "C128", "title": "The list of swaps is that of the chain", "statement": "Asking for swaps by token, by currency, by both or by none gives exactly the swaps that were deployed in the present chain from the given height on with this token and currency, each once, whatever blocks were applied and reverted before, the oldest up to the limit. They are ordered by their balance of the token (or of the currency). The swap with most liquidity is first.", "quantifier": "all histories of blocks with any deployments and reverts to any height; all queries and limits", "why_tests_cant": "the index must follow the chain over all switches between forks and for all keys", "anchors": ["src/Node.cpp: Node::apply (swap_index, contract_log)", "src/Node_api.cpp: Node::get_swaps"]}
{"id": "C129", "title": "Tokens added to a wallet stay shown", "statement": "A token that was added to the wallet and not removed since is shown, now and after any restart, also one that interrupts the call once the config file is written. MMX is always shown. A removal is refused for a token that was not added. A removed token is not shown any more, and no other token is touched.", "quantifier": "all histories of additions, removals, restarts and stops within a call; all lists of default tokens", "why_tests_cant": "the list in memory and the one in the config file must agree after every history and stop", "anchors": ["src/Wallet.cpp: Wallet::add_token, Wallet::rem_token, Wallet::get_token_list, Wallet::init"]}
{"id": "C130", "title": "A block pays the farmer, the timelord and the project their shares and nobody else", "statement": "Applying a valid block changes the balance of every address exactly by what it spends and receives in transactions that did not fail and, in MMX, by its shares: the VDF reward for the address named as such, the block reward and the larger half of the fees for the farmer's address, and the project's share, at most half of the fees, for the address of the project. A block claims exactly what it may, or nothing if it names no address. Farmer and project together get no more fees than were paid.", "quantifier": "every valid block on every ledger, every address and currency, all chain parameters", "why_tests_cant": "ranges over all blocks, fees, parameters and ledgers; one address may be all of the payees and sender at once", "anchors": ["src/Block.cpp: Block::get_outputs", "src/Node_validate.cpp: Node::validate (reward_amount)", "src/Node.cpp: Node::apply", "include/mmx/utils.h: calc_project_reward, calc_final_block_reward"]}
