{
 "claims": [
  {
   "property": "C01",
   "status": "proved",
   "theorems": [
    "C01_lookup_newest",
    "C01_default_comparator"
   ],
   "note": ""
  },
  {
   "property": "C02",
   "status": "proved",
   "theorems": [
    "C02_flush_merge_invisible"
   ],
   "note": "lookups and current_version; scans in C07"
  },
  {
   "property": "C03",
   "status": "proved",
   "theorems": [
    "C03_revert_exact"
   ],
   "note": ""
  },
  {
   "property": "C04",
   "status": "proved",
   "theorems": [
    "C04_crash_safe",
    "C04_committed_data_survives"
   ],
   "note": "finalisation of a block merge is one effect here, see C06"
  },
  {
   "property": "C05",
   "status": "partial",
   "theorems": [
    "C05_refuted",
    "C05_version_survives_partial"
   ],
   "note": "false of the code as modelled after a commit that flushes; proved when the last commit did not flush"
  },
  {
   "property": "C06",
   "status": "partial",
   "theorems": [
    "C06_merge_crash_partial",
    "C06_refuted"
   ],
   "note": "false of the code as modelled: committed data is lost after the next merge and restart; holds unless the process dies while two or more sources are left"
  },
  {
   "property": "C07",
   "status": "proved",
   "theorems": [
    "C07_iteration"
   ],
   "note": "Table::Iterator over memory and every block, for every table reached by inserts, commits, flushes, merges, reverts and restarts. Iteration while the table is changed at the same time is not modelled."
  },
  {
   "property": "C08",
   "status": "partial",
   "theorems": [
    "C08_neighbour_partial",
    "C08_one_source",
    "C08_refuted",
    "C08_skips_refuted"
   ],
   "note": "Proved as long as the direction does not turn, and for turns when the current key is stored wherever the neighbour is (all keys in one place). Refuted otherwise: keys 1 and 3 in a block, 2 in memory: seek_prev(3) stands on 2 and next() ends instead of giving 3."
  },
  {
   "property": "C09",
   "status": "proved",
   "theorems": [
    "C09_uint",
    "C09_hash",
    "C09_hash_uint"
   ],
   "note": "insert_many, find, find_last, find_range and scan of the three classes of multi_table.h on the table of C01-C07, with commits, reverts and restarts. Not modelled: the truncation of find_last_range, and values that do not decode."
  },
  {
   "property": "C10",
   "status": "proved",
   "theorems": [
    "C10_uint_keys",
    "C10_uint_uint_keys",
    "C10_hash_keys",
    "C10_hash_uint_keys",
    "C10_hash_uint_uint_keys",
    "C10_balance_keys"
   ],
   "note": ""
  },
  {
   "property": "C11",
   "status": "proved",
   "theorems": [
    "C11_round_trip",
    "C11_shortest_width",
    "C11_injective"
   ],
   "note": "All value types, both option flags, any trailing data; binaries below 2^32-1 bytes as enforced by the allocator."
  },
  {
   "property": "C12",
   "status": "proved",
   "theorems": [
    "C12_in_bounds",
    "C12_well_formed"
   ],
   "note": "Decoder modelled as raw reads at data+offset guarded only by the checks written in the code; result independent of memory outside the given length."
  },
  {
   "property": "C13",
   "status": "partial",
   "theorems": [
    "C13_total_order_partial",
    "C13_pointers_partial",
    "C13_refuted"
   ],
   "note": "Antisymmetric, transitive, total. Zero exactly for identical values, except that arrays are identified by address only: two array values with one address and different sizes compare equal (refuted)."
  },
  {
   "property": "C14",
   "status": "proved",
   "theorems": [
    "C14_operation_preimage",
    "C14_contract_preimage",
    "C14_tx_id_binds",
    "C14_version_0_collides"
   ],
   "note": "Pre-images of operations, all contract types and whole transactions; equal ids force equal signed content unless concrete hashed strings collide. Type ids of the code generator are a parameter assumed distinct."
  },
  {
   "property": "C15",
   "status": "proved",
   "theorems": [
    "C15_tx_hash_binds"
   ],
   "note": "SHA-256 is a parameter; transactions are identified with the byte string that is hashed"
  },
  {
   "property": "C16",
   "status": "partial",
   "theorems": [
    "C16_refuted",
    "C16_accepts",
    "C16_round_trip_partial",
    "C16_offset_partial",
    "C16_offset_refuted"
   ],
   "note": "false for symbols of 24 and up and for offsets in the last bits of a word; proved for symbols 0..23 and offsets with mod 64 <= 48"
  },
  {
   "property": "C17",
   "status": "proved",
   "theorems": [
    "C17_round_trip",
    "C17_checksum"
   ],
   "note": "SHA-256 is a parameter"
  },
  {
   "property": "C18",
   "status": "proved",
   "theorems": [
    "C18_round_trip",
    "C18_injective"
   ],
   "note": "the bech32 library is not in the tree and is modelled after BIP-350"
  },
  {
   "property": "C19",
   "status": "proved",
   "theorems": [
    "C19_round_trip",
    "C19_no_value_created",
    "C19_amount_round_trip",
    "C19_amount_never_grows"
   ],
   "note": ""
  },
  {
   "property": "C20",
   "status": "proved",
   "theorems": [
    "C20_round_trip",
    "C20_used_operands",
    "C20_packed_code_behaves_the_same"
   ],
   "note": "operands an instruction does not use are not stored; they must be zero for equality"
  },
  {
   "property": "C21",
   "status": "proved",
   "theorems": [
    "C21_call_ends_within_gas",
    "C21_instruction_bound"
   ],
   "note": "Every call, with all nested remote calls, ends within the instruction bound; success implies gas_used <= gas_limit."
  },
  {
   "property": "C22",
   "status": "proved",
   "theorems": [
    "C22_arithmetic_exact",
    "C22_version_0_multiplication_refuted"
   ],
   "note": "Instruction-level theorem for ADD, SUB, MUL, DIV, MOD with overflow checking; the refutation shows why tx version >= 1 is needed."
  },
  {
   "property": "C23",
   "status": "partial",
   "theorems": [
    "C23_context_unchanged_partial",
    "C23_deposit_unchanged_refuted"
   ],
   "note": "Everything but the length of the deposit array is constant; POP_BACK can shorten the deposit array (refuted), entries of constant maps can be erased."
  },
  {
   "property": "C24",
   "status": "proved",
   "theorems": [
    "C24_sent_and_left",
    "C24_outputs_are_sent",
    "C24_engine_balance_exact",
    "C24_balance_instruction"
   ],
   "note": "Exact accounting per contract and currency over a call with all nested calls; the balance known to an engine is exact after every instruction."
  },
  {
   "property": "C25",
   "status": "proved",
   "theorems": [
    "C25_layers_are_snapshots"
   ],
   "note": "Any sequence of writes, opens, commits and drops on a stack of caches over the database refines a stack of snapshots. Contracts are told apart by the first 20 bytes of their address (see C58), keys are never overwritten (what the engine keeps to)."
  },
  {
   "property": "C26",
   "status": "proved",
   "theorems": [
    "C26_currencies_are_conserved",
    "C26_nothing_is_created",
    "C26_nothing_is_lost",
    "C26_contract_balance"
   ],
   "note": "equality for every currency whose contract the transaction has not locked (so whose mint cannot run); a locked currency contract may add outputs: minted units. Sums of inputs below 2^128 for the equality; creation is excluded without that condition"
  },
  {
   "property": "C27",
   "status": "proved",
   "theorems": [
    "C27_fee_bounds",
    "C27_balances_suffice"
   ],
   "note": ""
  },
  {
   "property": "C28",
   "status": "proved",
   "theorems": [
    "C28_failed_costs_only_its_fee",
    "C28_succeeded_is_committed",
    "C28_block_without_the_failed"
   ],
   "note": "effects of a transaction on a block: Block::get_inputs/get_outputs and the commit of the storage cache"
  },
  {
   "property": "C29",
   "status": "proved",
   "theorems": [
    "C29_no_overdraft",
    "C29_balances_are_exact"
   ],
   "note": ""
  },
  {
   "property": "C30",
   "status": "partial",
   "theorems": [
    "C30_supply_covers_balances_partial",
    "C30_supply_is_sum_partial",
    "C30_native_supply_is_sum_partial",
    "C30_supply_is_sum_refuted"
   ],
   "note": "exact for every token; the native supply is overstated after a block that burns more fees than it creates (Node::apply clamps the change at zero): C30_supply_is_sum_refuted"
  },
  {
   "property": "C31",
   "status": "partial",
   "theorems": [
    "C31_result_is_accepted_partial",
    "C31_chosen_block_is_accepted_partial",
    "C31_result_is_accepted_refuted",
    "C31_chosen_block_is_accepted_refuted"
   ],
   "note": "holds when the fee limit covers the cost without rounding and no transaction that succeeded is left out after execution; three counterexamples otherwise"
  },
  {
   "property": "C32",
   "status": "proved",
   "theorems": [
    "C32_same_as_one_by_one",
    "C32_results_are_final",
    "C32_block_verdict"
   ],
   "note": "for every interleaving of the steps of the tasks; reads of the shared storage may see any state it had while the transaction ran; every write of a commit is a step of its own"
  },
  {
   "property": "C33",
   "status": "proved",
   "theorems": [
    "C33_no_deadlock",
    "C33_can_finish"
   ],
   "note": "never stuck, and a bound on the number of steps"
  },
  {
   "property": "C34",
   "status": "proved",
   "theorems": [
    "C34_enough_owners_signed",
    "C34_enough_signatures_accepted",
    "C34_valid_contract",
    "C34_plain_address"
   ],
   "note": "address of a public key and verification of a signature are arbitrary functions"
  },
  {
   "property": "C35",
   "status": "proved",
   "theorems": [
    "C35_fee_split",
    "C35_project_share",
    "C35_block_reward",
    "C35_buffer"
   ],
   "note": "sums below 2^64"
  },
  {
   "property": "C36",
   "status": "proved",
   "theorems": [
    "C36_step",
    "C36_range",
    "C36_counters"
   ],
   "note": ""
  },
  {
   "property": "C37",
   "status": "proved",
   "theorems": [
    "C37_never_zero",
    "C37_towards_rate"
   ],
   "note": "for parameters with which 32-bit counters cannot wrap; mainnet is one"
  },
  {
   "property": "C38",
   "status": "partial",
   "theorems": [
    "C38_best",
    "C38_order_partial",
    "C38_order_refuted"
   ],
   "note": "Proved for every history during which the root stays the same and no block claims to follow the root directly without doing so: update() ends on the best known valid chain, which depends only on the verified blocks and their votes. Refuted by a concrete run when siblings of the root are roots of other forks: the comparison is then not transitive and the order of arrival decides."
  },
  {
   "property": "C39",
   "status": "proved",
   "theorems": [
    "C39_votes",
    "C39_exact",
    "C39_validators"
   ],
   "note": "For every run, commits and deep forks included, the number of votes is the number of distinct validators with a valid vote; while the root stays the same it is the number of votes passed on. The validators are the farmers of the blocks from commit_delay blocks back."
  },
  {
   "property": "C40",
   "status": "proved",
   "theorems": [
    "C40_lookup",
    "C40_unique",
    "C40_agree",
    "C40_verify",
    "C40_peak",
    "C40_agree_refuted"
   ],
   "note": "find_challenge, the lookup by VDF height and the header checks of verify_proof; hash functions, difficulty update and header store are arbitrary. C40_agree_refuted: beyond the delay the exception (a space fork in between) is real: a challenge given out further ahead changes."
  },
  {
   "property": "C41",
   "status": "proved",
   "theorems": [
    "C41_fee_accounting",
    "C41_admission"
   ],
   "note": "for pools that never have more than 2^32 transactions, with fees of 32 bits"
  },
  {
   "property": "C42",
   "status": "partial",
   "theorems": [
    "C42_chosen_block_passes_partial",
    "C42_chosen_block_passes_refuted"
   ],
   "note": "for non-decreasing bands of which the first is at most one and each has room for the largest transaction; refuted for other parameters"
  },
  {
   "property": "C43",
   "status": "partial",
   "theorems": [
    "C43_balanced_partial",
    "C43_covered_partial",
    "C43_enough",
    "C43_balanced_refuted",
    "C43_covered_refuted"
   ],
   "note": "gather_inputs, complete. Missing: a transaction that already has more inputs than outputs is completed unbalanced (C43_balanced_refuted), and inputs from own addresses that are there before are not counted against the balance (C43_covered_refuted); amounts that add up to 2^128 or more are excluded."
  },
  {
   "property": "C44",
   "status": "proved",
   "theorems": [
    "C44_trade",
    "C44_accept",
    "C44_owner_only",
    "C44_offer_ok",
    "C44_nft_accept",
    "C44_nft_owner_only"
   ],
   "note": "contract sources modelled method by method over the operations of the engine (the compiler is not modelled); payments below 2^128 as the ledger guarantees; an offer is never made with equal currencies or price zero"
  },
  {
   "property": "C45",
   "status": "proved",
   "theorems": [
    "C45_solvent",
    "C45_trade",
    "C45_can_withdraw",
    "C45_fair_removal",
    "C45_fees_computable"
   ],
   "note": "every reachable state of a swap contract; balances of the contract and the amount removed below 2^128 for the trade and withdrawal theorems"
  },
  {
   "property": "C46",
   "status": "partial",
   "theorems": [
    "C46_removal_pays_partial",
    "C46_all_paid_partial",
    "C46_refuted"
   ],
   "note": "refuted: the public argument dry_run takes liquidity out of the pool, even while locked, and sends nothing; proved for every other call"
  },
  {
   "property": "C47",
   "status": "proved",
   "theorems": [
    "C47_locked",
    "C47_step",
    "C47_unlock"
   ],
   "note": "contract sources modelled method by method (the compiler is not modelled)"
  },
  {
   "property": "C48",
   "status": "proved",
   "theorems": [
    "C48_balances",
    "C48_time_lock",
    "C48_time_lock_opens",
    "C48_escrow",
    "C48_transfer",
    "C48_relay_step",
    "C48_token_step",
    "C48_wallet_step",
    "C48_wallet_plan",
    "C48_wallet_cancel"
   ],
   "note": "contract sources modelled method by method (the compiler is not modelled)"
  },
  {
   "property": "C49",
   "status": "proved",
   "theorems": [
    "C49_own_time_diff",
    "C49_own_time_stamp"
   ],
   "note": "the floating-point estimate is an arbitrary integer"
  },
  {
   "property": "C50",
   "status": "proved",
   "theorems": [
    "C50_line_point",
    "C50_onto",
    "C50_truncated"
   ],
   "note": ""
  },
  {
   "property": "C51",
   "status": "partial",
   "theorems": [
    "C51_program_partial",
    "C51_instruction_partial",
    "C51_defined_behaviour_refuted"
   ],
   "note": "False of the code: two programs that use a destroyed object. Proved for programs of the instructions that do not copy, move or fetch containers, and for each such instruction in any state."
  },
  {
   "property": "C52",
   "status": "partial",
   "theorems": [
    "C52_loaded_entries_partial",
    "C52_erase_is_permanent_refuted"
   ],
   "note": "False of the code: overwrite then erase of a stored entry brings the stored value back. Proved for entries that the engine took from storage, for every program."
  },
  {
   "property": "C53",
   "status": "partial",
   "theorems": [
    "C53_const_methods_partial",
    "C53_return_value_refuted"
   ],
   "note": "False of the code for non-const methods. Proved for const methods and values that are not references or containers."
  },
  {
   "property": "C54",
   "status": "partial",
   "theorems": [
    "C54_completed_calls_partial",
    "C54_gas_of_failed_call_refuted"
   ],
   "note": "False of the code: gas of a child that throws is not charged. Proved for calls that return: all gas of the called contract is charged."
  },
  {
   "property": "C55",
   "status": "partial",
   "theorems": [
    "C55_stack_partial",
    "C55_stack_bounds_refuted"
   ],
   "note": "False of the code: clear_stack runs past its end. Proved: stack operands stay in the stack, and RET is defined while the stack pointer of the frame is inside it."
  },
  {
   "property": "C56",
   "status": "proved",
   "theorems": [
    "C56_other_contracts_untouched",
    "C56_only_executables_act"
   ],
   "note": ""
  },
  {
   "property": "C57",
   "status": "proved",
   "theorems": [
    "C57_api_call_changes_nothing"
   ],
   "note": ""
  },
  {
   "property": "C58",
   "status": "partial",
   "theorems": [
    "C58_separate_storage_partial",
    "C58_refuted"
   ],
   "note": "The database keys storage by the first 20 bytes of the contract address only: refuted for two contracts sharing these, proved for all others."
  },
  {
   "property": "C59",
   "status": "proved",
   "theorems": [
    "C59_inputs_are_authorised"
   ],
   "note": "the answers of PubKey/MultiSig/contract validation are parameters here; see C34"
  },
  {
   "property": "C60",
   "status": "proved",
   "theorems": [
    "C60_validation_ends"
   ],
   "note": ""
  },
  {
   "property": "C61",
   "status": "partial",
   "theorems": [
    "C61_deadline_partial",
    "C61_deadline_refuted"
   ],
   "note": "refuted: a task that waits for one that was skipped waits forever; it is proved that this is the only way to get stuck"
  },
  {
   "property": "C62",
   "status": "partial",
   "theorems": [
    "C62_pending_history",
    "C62_shown_once_partial",
    "C62_shown_once_refuted"
   ],
   "note": "exactly the right entries are shown; once for one address; refuted: shown several times when several of the addresses take part in the transaction"
  },
  {
   "property": "C63",
   "status": "proved",
   "theorems": [
    "C63_purge",
    "C63_nothing_removed",
    "C63_cheapest_removed"
   ],
   "note": "the balance is cut to 64 bits by the code, which matters for C63_nothing_removed and C63_cheapest_removed only"
  },
  {
   "property": "C64",
   "status": "proved",
   "theorems": [
    "C64_nft_once",
    "C64_template"
   ],
   "note": "contract sources modelled method by method (the compiler is not modelled)"
  },
  {
   "property": "C65",
   "status": "proved",
   "theorems": [
    "C65_virtual_plot"
   ],
   "note": "amounts below 2^128, the range of a payment"
  },
  {
   "property": "C66",
   "status": "partial",
   "theorems": [
    "C66_final_partial",
    "C66_final_refuted"
   ],
   "note": "Proved while no block claims to follow the root directly without doing so. Refuted: a block with the height next to the root that was built on the peak makes the peak the root at once (Node.cpp fork_to, 'root = new_root')."
  },
  {
   "property": "C67",
   "status": "proved",
   "theorems": [
    "C67_spendable",
    "C67_no_double"
   ],
   "note": "update_cache, update_from, reset_cache with complete. Wallet::reserve and release are stubs in the code, so nothing is ever reserved."
  },
  {
   "property": "C68",
   "status": "proved",
   "theorems": [
    "C68_one_version",
    "C68_snapshot"
   ],
   "note": "DataBase::commit, revert, min_version, recover over any number of tables of C01-C06; each table may have got arbitrarily far when the process dies. Finalisation of a block merge is one effect, see C06."
  },
  {
   "property": "C69",
   "status": "partial",
   "theorems": [
    "C69_committed_version_partial",
    "C69_refuted"
   ],
   "note": "False of the code: Table::flush of a table with nothing to write truncates its log and leaves the record of the version in the buffer; a process death before the next commit then takes the whole database back to the last block of that table, or to version 0. Proved when every table flushed by the last commit had been written to at the version before."
  },
  {
   "property": "C70",
   "status": "proved",
   "theorems": [
    "C70_verdict",
    "C70_ends",
    "C70_work"
   ],
   "note": "verify_vdf and verify_vdf_cpu, for every schedule of the chunks and both ways of computing the lanes; the hash function is arbitrary. Proofs with fewer than 2^32 segments. The OpenCL path is not modelled."
  },
  {
   "property": "C71",
   "status": "proved",
   "theorems": [
    "C71_block",
    "C71_chain"
   ],
   "note": "for every sequence of processed proofs and finalised blocks; hash functions, header store and length of an interval are arbitrary."
  },
  {
   "property": "C72",
   "status": "partial",
   "theorems": [
    "C72_own_block_partial",
    "C72_progress_partial",
    "C72_refuted_skipped",
    "C72_refuted_displaced"
   ],
   "note": "False of the code: nothing compares the start a proof names with the position of its input. Proved when every proof names the position of its input and no two proofs with different input or infusion end in the same output."
  },
  {
   "property": "C73",
   "status": "partial",
   "theorems": [
    "C73_valid_partial",
    "C73_served",
    "C73_has_point",
    "C73_refuted_race",
    "C73_refuted_overlap",
    "C73_refuted_stop"
   ],
   "note": "False of the code in three ways: an update between a changed request and the next round of the VDF thread, a changed interval length, and stop_vdf with requests pending. Proved for every other interleaving (at most 1000 infusions after the start of a waiting request)."
  },
  {
   "property": "C74",
   "status": "proved",
   "theorems": [
    "C74_alive",
    "C74_chain",
    "C74_no_trace",
    "C74_heights",
    "C74_restart"
   ],
   "note": "for arbitrary validity and effects of blocks and an abstract versioned table (C01-C03, C68). A crash may come at every write of an operation. tx_index (file offsets), the order of farmers with equal counts and errors of the file system are left out."
  },
  {
   "property": "C75",
   "status": "partial",
   "theorems": [
    "C75_partial",
    "C75_deep_partial",
    "C75_refuted",
    "C75_refuted_height"
   ],
   "note": "False of the code for forks from below the root: if a block below the new root is invalid and another one there was applied before it, the node stays on the applied one, below its root, and no switch from that root works any more (C75_refuted); and a block that claims a height it does not have can take the node back to an old block (C75_refuted_height). Proved for every fork that descends from the root when no block lies about its height; for the other forks it is proved that these are the only ends."
  },
  {
   "property": "C76",
   "status": "partial",
   "theorems": [
    "C76_valid",
    "C76_partial",
    "C76_enough_partial",
    "C76_refuted_twice",
    "C76_refuted_two",
    "C76_refuted_forged"
   ],
   "note": "False of the code: a reply is matched by its number alone, not by the peer it comes from, and a peer may be counted as failed and as succeeded. Proved with fewer than half of min_sync_peers dishonest peers and replies only from those that were asked; the three refutations show that neither can be dropped."
  },
  {
   "property": "C77",
   "status": "partial",
   "theorems": [
    "C77_source",
    "C77_none",
    "C77_none_start",
    "C77_partial",
    "C77_refuted"
   ],
   "note": "False of the code: the hash of the block is never compared with the one asked for. Proved that the block came in reply to a request, and that nothing is returned only when every synced peer replied without a block."
  },
  {
   "property": "C78",
   "status": "proved",
   "theorems": [
    "C78_once",
    "C78_gap",
    "C78_at_most_once",
    "C78_valid",
    "C78_early",
    "C78_sent",
    "C78_back",
    "C78_points"
   ],
   "note": "relay_msg_hash, receive_msg_hash, all handlers of published and received messages, the queues of peers, trimming; the shuffle and the decisions about unreliable messages are arbitrary. Proofs of time are also sent to every new connection, which C78_sent does not count."
  },
  {
   "property": "C79",
   "status": "partial",
   "theorems": [
    "C79_partial",
    "C79_refuted"
   ],
   "note": "False of the code: the queue of a peer is a map from the time in microseconds, and emplace drops a second message for the same time. Proved when nothing waits in the queue for one of the times the message is spread over."
  },
  {
   "property": "C80",
   "status": "proved",
   "theorems": [
    "C80_three",
    "C80_four",
    "C80_swapped"
   ],
   "note": "addr_t::to_string and from_string; the bech32 library is not part of the tree and is modelled after BIP-350. That four errors are always found is shown by linearity and an exhaustive check of the checksums of single and double errors, done by the kernel."
  },
  {
   "property": "C81",
   "status": "partial",
   "theorems": [
    "C81_partial",
    "C81_refuted_network",
    "C81_refuted_padding"
   ],
   "note": "False of the code: from_string compares neither the prefix with \"mmx\" nor the four bits after the address with zero, so addresses of other networks (\"xch1...\") are accepted, and each address has sixteen strings. Proved for strings with the right prefix and no such bits."
  },
  {
   "property": "C82",
   "status": "partial",
   "theorems": [
    "C82_customary_order_partial",
    "C82_bits_and_truth_refuted",
    "C82_chained_assignment_refuted"
   ],
   "note": "False of the code where an operator on bits stands next to one on truth values (& ranks with &&, ^ with ^^, | with ||), and for a = b = c, which is read as (a = b) = c. Proved for every program of the modelled fragment without such mixtures."
  },
  {
   "property": "C83",
   "status": "partial",
   "theorems": [
    "C83_compiled_contract_does_what_it_says_partial",
    "C83_missing_return_refuted",
    "C83_constant_changed_refuted",
    "C83_default_argument_refuted",
    "C83_operand_order_refuted",
    "C83_assert_message_refuted"
   ],
   "note": "Proved end to end (compiler, linker, loader, machine) for programs with numbers, truth values and null, local variables, constants, all control flow, all operators, min, max, assert and calls. Missing: static variables, arrays, objects, strings, other built-in functions, calls by transactions. False of the code for functions that end in a return inside of an if, for constants changed by compound assignment, for default values of arguments in calls from outside, for operands changed while an expression is evaluated, and for assert with a computed message."
  },
  {
   "property": "C84",
   "status": "proved",
   "theorems": [
    "C84_accepted_proofs_are_good",
    "C84_good_proofs_are_accepted"
   ],
   "note": ""
  },
  {
   "property": "C85",
   "status": "proved",
   "theorems": [
    "C85_nodes_agree"
   ],
   "note": "collisions of the data of two proofs made of the same values are excluded by hypothesis, as in the statement"
  },
  {
   "property": "C86",
   "status": "proved",
   "theorems": [
    "C86_published_proofs_are_accepted",
    "C86_long_names_are_not_heard"
   ],
   "note": "a harvester whose name has 1024 characters or more is the exception: its responses are invalid"
  },
  {
   "property": "C87",
   "status": "partial",
   "theorems": [
    "C87_winning_proofs_are_published_partial",
    "C87_missed_proof_refuted"
   ],
   "note": "false in general; proved if no park but the first begins with a value asked for, all parks can be read and the search ends"
  },
  {
   "property": "C88",
   "status": "partial",
   "theorems": [
    "C88_published_values_partial",
    "C88_large_values_refuted"
   ],
   "note": "false for the check of the node; proved for what a harvester publishes"
  },
  {
   "property": "C89",
   "status": "partial",
   "theorems": [
    "C89_votes_do_not_split_partial",
    "C89_same_height_refuted",
    "C89_restart_refuted"
   ],
   "note": "Proved for blocks with the same parent and a node that is not restarted. False of the code otherwise: what was voted for is remembered by parent and only in memory, so after a reorganisation of two blocks, or a restart, the node votes at once for another block at the same height."
  },
  {
   "property": "C90",
   "status": "partial",
   "theorems": [
    "C90_votes_are_for_the_best_proof_partial",
    "C90_weaker_proof_refuted"
   ],
   "note": "Proved for votes that do not replace an earlier vote for another block with the same parent. False of the code for those: vote again for the block of the new main chain is not conditional on its proof."
  },
  {
   "property": "C91",
   "status": "partial",
   "theorems": [
    "C91_one_block_per_proof_partial",
    "C91_restart_refuted"
   ],
   "note": "Proved for a node that is not restarted. The list of used proofs is in memory only: after a restart a second block is made and signed from the same proof."
  },
  {
   "property": "C92",
   "status": "proved",
   "theorems": [
    "C92_own_blocks_have_the_best_proofs",
    "C92_own_blocks_pass_the_check",
    "C92_order_of_arrival"
   ],
   "note": "for every history of a node from its start, any hash function with 32 bytes."
  },
  {
   "property": "C93",
   "status": "proved",
   "theorems": [
    "C93_votes_are_by_own_validators"
   ],
   "note": "for every history of a node from its start; at most 2^32 - 1 validators."
  },
  {
   "property": "C94",
   "status": "proved",
   "theorems": [
    "C94_own_blocks_have_verified_proofs",
    "C94_nothing_while_syncing"
   ],
   "note": "for every history of a node from its start; the check of a proof is that of C84 and arbitrary here."
  },
  {
   "property": "C95",
   "status": "partial",
   "theorems": [
    "C95_tokens_can_be_sold_back_partial",
    "C95_owner_part",
    "C95_recover_refuted"
   ],
   "note": "Proved for histories without recover() of the currency of the sale. The owner can take the whole backing with recover(amount, currency): the argument hides the variable of the same name, so that no check is possible; C95_recover_refuted."
  },
  {
   "property": "C96",
   "status": "proved",
   "theorems": [
    "C96_minted_at_the_price",
    "C96_liquid_minted_at_the_price",
    "C96_only_the_owner_is_paid"
   ],
   "note": "for calls with an engine of version 1 or later, which detects overflow of products; version 0 may mint fewer tokens."
  },
  {
   "property": "C97",
   "status": "proved",
   "theorems": [
    "C97_price_is_monotone",
    "C97_pots_are_there",
    "C97_opening"
   ],
   "note": "the sum of what the contract ever holds below 2^128, as for every balance."
  },
  {
   "property": "C98",
   "status": "proved",
   "theorems": [
    "C98_round_trips_do_not_pay",
    "C98_pot_of_a_horse"
   ],
   "note": "proof by a rational potential of the pot."
  },
  {
   "property": "C99",
   "status": "partial",
   "theorems": [
    "C99_history_is_complete_partial",
    "C99_nothing_else_partial",
    "C99_limit",
    "C99_empty_range_refuted"
   ],
   "note": "Proved for since <= until; false otherwise: the step that completes the last block returns the payments of height until. Completeness without max_search. Fewer than 2^31 rows. Entries of the pool are an arbitrary list (C62) that the filter is not applied to."
  },
  {
   "property": "C100",
   "status": "partial",
   "theorems": [
    "C100_memo_history_partial",
    "C100_nothing_else",
    "C100_limit_refuted"
   ],
   "note": "Proved without limit, for hashes without collisions. With a limit the last block is cut when it has more than 100 payments: get_history_memo lacks the step that completes it."
  },
  {
   "property": "C101",
   "status": "proved",
   "theorems": [
    "C101_history_adds_up",
    "C101_logs_of_chains"
   ],
   "note": "chains as in C30; fewer than 2^31 rows; also shows that the logs of chains satisfy what C99 and C100 assume."
  },
  {
   "property": "C102",
   "status": "partial",
   "theorems": [
    "C102_liquidity_partial",
    "C102_switch_refuted",
    "C102_no_argument_refuted",
    "C102_same_transaction_refuted",
    "C102_twice_refuted"
   ],
   "note": "Proved for distinct addresses whose own calls are operations that name the swap, are not switch_pool, and give rem_all_liquid its optional argument; others may do anything. False in each of the other cases: after switch_pool the report is wrong and can wrap below zero; rem_all_liquid() without argument is not noticed; liquidity added in the transaction that deploys the swap makes the query throw for ever; addresses given twice count twice."
  },
  {
   "property": "C103",
   "status": "partial",
   "theorems": [
    "C103_recent_offers",
    "C103_recent_offers_for_partial",
    "C103_offers_since",
    "C103_offers_by",
    "C103_mark_refuted",
    "C103_min_bid_refuted",
    "C103_one_offer_blocks_refuted"
   ],
   "note": "Proved when all offers can be presented (price and the amount that buys all of it fit 128 bits), and for searches by currency when hashes do not collide and the currency does not begin or end with the mark. False otherwise: one offer that cannot be presented makes the queries throw for everybody; whatever the hash, currencies that contain the mark ANY at one end are confused; min_bid is ignored when no currency is given."
  },
  {
   "property": "C104",
   "status": "partial",
   "theorems": [
    "C104_trade_history_partial",
    "C104_trade_history_for_partial",
    "C104_accept_refuted",
    "C104_nested_refuted",
    "C104_same_block_refuted",
    "C104_large_refuted"
   ],
   "note": "Proved for trades made by operations of transactions, whose amounts fit; amounts are exact for trade, and for accept only an upper bound. False otherwise: accept is reported with all that was paid in although the rest is returned; trades by other contracts are missing; a trade with an offer of the same block is filed under the native currency; one acceptance with a large payment makes the queries throw."
  },
  {
   "property": "C105",
   "status": "partial",
   "theorems": [
    "C105_ranking_partial",
    "C105_limit",
    "C105_restart",
    "C105_zero_refuted",
    "C105_failure_refuted"
   ],
   "note": "Proved when no block fails between the update of the ranking and the end of apply; after a restart it is right whatever happened. False otherwise: a block that cannot be written is counted (and again when it is applied later); a farmer whose blocks were all reverted stays with count 0."
  },
  {
   "property": "C106",
   "status": "partial",
   "theorems": [
    "C106_blocks_partial",
    "C106_summary_partial",
    "C106_order",
    "C106_reward_refuted",
    "C106_twice_refuted"
   ],
   "note": "Proved for distinct keys and, for sums, rewards below 2^32. Rewards of 2^32 or more are cut to 32 bits in the table; a key given twice counts twice."
  },
  {
   "property": "C107",
   "status": "proved",
   "theorems": [
    "C107_estimate",
    "C107_wallet"
   ],
   "note": "For balances below 2^128, which the ledger guarantees."
  },
  {
   "property": "C108",
   "status": "proved",
   "theorems": [
    "C108_liquidity",
    "C108_wallet"
   ],
   "note": "For balances below 2^128."
  },
  {
   "property": "C109",
   "status": "proved",
   "theorems": [
    "C109_info",
    "C109_stored",
    "C109_volume"
   ],
   "note": "Reserves and fees for balances below 2^128; the volume modulo 2^128 as the code computes it."
  },
  {
   "property": "C110",
   "status": "proved",
   "theorems": [
    "C110_price",
    "C110_accept",
    "C110_ask",
    "C110_possible",
    "C110_asked_refuted"
   ],
   "note": "For balances below 2^128. C110_possible says which offers can be made at all; C110_asked_refuted that the amount asked does not always buy the whole offer: with extreme prices it costs up to almost twice as much."
  },
  {
   "property": "C111",
   "status": "partial",
   "theorems": [
    "C111_balance",
    "C111_total",
    "C111_totals",
    "C111_never_more",
    "C111_all",
    "C111_contract",
    "C111_one",
    "C111_limit_refuted"
   ],
   "note": "Proved as stated, for sums below 2^128 and currencies other than the address that is all ones (whose row a query without list never reads). That a query with the default limit of 100 is complete for at most 100 currencies with funds is refuted by C111_limit_refuted: rows with a balance of zero count."
  },
  {
   "property": "C112",
   "status": "partial",
   "theorems": [
    "C112_wallet",
    "C112_one",
    "C112_chain",
    "C112_total_refuted"
   ],
   "note": "For sums below 2^128. That the total never exceeds what there is fails (C112_total_refuted) when the wallet signed a transaction whose fee another address pays; C112_wallet has the condition."
  },
  {
   "property": "C113",
   "status": "partial",
   "theorems": [
    "C113_deployed",
    "C113_owned",
    "C113_history",
    "C113_owner_refuted"
   ],
   "note": "Deployed contracts and histories as stated, for heights below 2^32-1 and less than 2^32 rows per block. Ownership holds only for the owner that a contract was deployed with: a plot NFT that was transferred stays with the old owner (C113_owner_refuted). Calls that contracts make of each other are not in the history."
  },
  {
   "property": "C114",
   "status": "partial",
   "theorems": [
    "C114_answered",
    "C114_blocks",
    "C114_confirmed",
    "C114_spaced",
    "C114_commit",
    "C114_no_genesis",
    "C114_progress",
    "C114_again",
    "C114_says_so",
    "C114_lost_refuted"
   ],
   "note": "Every height below the end is answered, and answered with blocks, except heights whose last request failed and was not repeated: when that failure is the last thing outstanding the engine takes the end for reached and never asks for the height again (C114_lost_refuted). Answers with blocks: when no request was outstanding as each search for the end began. What the blocks are, and fork choice, are left to the environment of this model (see FrkModel)."
  },
  {
   "property": "C115",
   "status": "partial",
   "theorems": [
    "C115_accept",
    "C115_binding",
    "C115_credit",
    "C115_reward",
    "C115_horizon",
    "C115_honest",
    "C115_no_key",
    "C115_info",
    "C115_unlocked_refuted",
    "C115_split_refuted",
    "C115_given_away"
   ],
   "note": "The pool gets the blocks only if the plot NFT is not its own: an unlocked plot NFT that was transferred to the pool target passes verify_partial although its blocks may pay anybody (C115_unlocked_refuted, C115_given_away). The signature covers everything but the place where pool_url ends and harvester begins (C115_split_refuted). Hash, signatures, find_challenge and verify_proof (C84) are parameters; contracts other than plot NFTs with a method mmx_reward_target are not modelled."
  },
  {
   "property": "C116",
   "status": "partial",
   "theorems": [
    "C116_median",
    "C116_vote",
    "C116_majority",
    "C116_none",
    "C116_none_mmx",
    "C116_once",
    "C116_asks",
    "C116_failed",
    "C116_range",
    "C116_swap",
    "C116_fetched",
    "C116_hourly",
    "C116_stale_refuted"
   ],
   "note": "The vote does not go back to 0 while the sources cannot be reached: it stays what it was for any time (C116_stale_refuted). With two sources one can turn the vote, and the check of bid and ask is one-sided (C116_weak_refuted). Prices are rationals, not doubles; parsing of JSON, curl and the file system are parameters (contents and ages of files)."
  },
  {
   "property": "C117",
   "status": "partial",
   "theorems": [
    "C117_var",
    "C117_entry",
    "C117_dump",
    "C117_entries",
    "C117_array",
    "C117_field",
    "C117_fields_now",
    "C117_by_key",
    "C117_map",
    "C117_map_limit_refuted",
    "C117_erased_refuted",
    "C117_height_refuted"
   ],
   "note": "read_storage ignores the height and always tells the present (C117_height_refuted; what it tells is C117_fields_now). Erased elements of arrays and maps are in the answers as null (C117_erased_refuted), so C117_array needs that nothing was taken away. read_storage_map throws for maps with more stored keys than one transaction has gas for (C117_map_limit_refuted), and reads the keys as they are now. Contracts are told apart by the first 20 bytes of their addresses (hypothesis distinct_prefix, as in C25). Tables are taken as C01 proves them."
  },
  {
   "property": "C118",
   "status": "proved",
   "theorems": [
    "C118_locked",
    "C118_unlock",
    "C118_states",
    "C118_restored",
    "C118_timeout"
   ],
   "note": "Accounts have at least one address. Where an account may be unlocked twice it is assumed that no two passphrases give the same first address but other keys (no_twins). The derivation of keys, finger prints and signatures are arbitrary functions. A timer that is due goes off before the next request."
  },
  {
   "property": "C119",
   "status": "partial",
   "theorems": [
    "C119_accepted",
    "C119_valid",
    "C119_is_signed",
    "C119_fee",
    "C119_request",
    "C119_sender_refuted",
    "C119_again_refuted",
    "C119_gas_refuted",
    "C119_wrap_refuted"
   ],
   "note": "For transactions without signatures: completing a transaction that has some keeps them although the id changes (C119_again_refuted). is_signed does not look at the sender and the users of operations, so that transactions without their signatures are sent, and refused (C119_sender_refuted). The limit on the fee does not include the signatures (C119_gas_refuted) and has 32 bits (C119_wrap_refuted), so C119_fee needs enough gas and fees below 2^32. The choice of inputs is arbitrary here (modelled for C43). At most 65535 signatures."
  },
  {
   "property": "C120",
   "status": "partial",
   "theorems": [
    "C120_identity",
    "C120_unique",
    "C120_answer",
    "C120_answers",
    "C120_synced",
    "C120_synced_now",
    "C120_books",
    "C120_kick",
    "C120_blocked",
    "C120_relay_refuted",
    "C120_kick_refuted"
   ],
   "note": "A signature for the challenge does not mean that the peer is the node: routers sign what anybody asks them to sign, so that challenges can be handed on (C120_relay_refuted). Kicking an address that is not connected does nothing (C120_kick_refuted). Bans hold as long as there are less than a million of them: then the first is dropped. Names resolve to the same address all the time; the TCP server gives out each client number once."
  },
  {
   "property": "C121",
   "status": "partial",
   "theorems": [
    "C121_connect",
    "C121_own",
    "C121_dials",
    "C121_excess",
    "C121_timeout",
    "C121_tell",
    "C121_private_refuted",
    "C121_twice_refuted"
   ],
   "note": "Addresses in 172.16.0.0/12 are not taken for local (C121_private_refuted). A host may be dialled by its name and its address at the same time (C121_twice_refuted). std::shuffle is an arbitrary function that permutes."
  },
  {
   "property": "C122",
   "status": "partial",
   "theorems": [
    "C122_totals",
    "C122_pools",
    "C122_partials",
    "C122_address",
    "C122_restart_refuted",
    "C122_pool_refuted"
   ],
   "note": "A harvester that starts again draws another id and counts twice until its old report is too old (C122_restart_refuted). After a change of the pool the difficulty of the old one is reported until the new one answers (C122_pool_refuted). Sums are modulo 2^64 and 2^32. Not modelled: the list of directories and response times."
  },
  {
   "property": "C123",
   "status": "partial",
   "theorems": [
    "C123_block",
    "C123_vote",
    "C123_keys",
    "C123_address_refuted"
   ],
   "note": "A farmer without a reward address signs blocks with a reward and no address, which no node accepts (C123_address_refuted); otherwise what it signs passes the checks of hash, signature and address. Keys are never forgotten, also when the wallet no longer has them (C123_keys)."
  },
  {
   "property": "C124",
   "status": "proved",
   "theorems": [
    "C124_chain",
    "C124_transaction",
    "C124_pending",
    "C124_block",
    "C124_ids",
    "C124_stays"
   ],
   "note": "Offsets count records instead of bytes. What was flushed to the file stays there (no faults of the disk); different blocks have different hashes; the versions of the database are given back by revert (C01-C03, C68)."
  },
  {
   "property": "C125",
   "status": "partial",
   "theorems": [
    "C125_keys",
    "C125_export",
    "C125_import",
    "C125_create",
    "C125_remove",
    "C125_restart",
    "C125_remove_refuted",
    "C125_failed_refuted",
    "C125_count_refuted"
   ],
   "note": "The restart is proved for histories in which no attempt to create an account fails, no account is created hidden, the number of addresses is set for listed accounts only, and no restart comes while the last account is a removed one; without these it is false of the code (the refuted theorems; findings 86-88). Writes of files succeed or fail as a whole."
  },
  {
   "property": "C126",
   "status": "partial",
   "theorems": [
    "C126_winner",
    "C126_paid",
    "C126_total",
    "C126_make",
    "C126_accept",
    "C126_points",
    "C126_named_refuted"
   ],
   "note": "That the addresses named by a block are those of its points holds for blocks made by the node (C126_make) and is not checked for others: C126_named_refuted, finding 89. Fewer than 2^32 addresses are named per interval; the interval is at least 2 for the sum."
  },
  {
   "property": "C127",
   "status": "partial",
   "theorems": [
    "C127_merge",
    "C127_parties",
    "C127_operations_refuted",
    "C127_stray_refuted"
   ],
   "note": "For inputs whose solution is there or is NO_SOLUTION (others: C127_stray_refuted), below 65535 solutions. Signatures of operations are not merged nor asked for by is_signed: C127_operations_refuted (findings 90, 91)."
  },
  {
   "property": "C128",
   "status": "partial",
   "theorems": [
    "C128_found",
    "C128_places",
    "C128_listed",
    "C128_best_refuted"
   ],
   "note": "With a limit the swap with most liquidity may be missing: C128_best_refuted, finding 92. The order without token and currency (by yield, floating point) is taken as an order by some number. Keys of the index (hashes) are different for different queries."
  },
  {
   "property": "C129",
   "status": "partial",
   "theorems": [
    "C129_kept",
    "C129_shown",
    "C129_removed",
    "C129_listed",
    "C129_removed_refuted"
   ],
   "note": "A removed token that is also in the default list is shown again after a restart: C129_removed_refuted, finding 93. A stop within the write of the file, and the reading of the key with + by VNX, are not modelled."
  },
  {
   "property": "C130",
   "status": "proved",
   "theorems": [
    "C130_paid",
    "C130_fees",
    "C130_claim"
   ],
   "note": "On the model of blocks of C29 and C30. Balances stay below 2^128; sums of fees are not wrapped. Who may be named for the VDF reward is C126."
  }
 ]
}