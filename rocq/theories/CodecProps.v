(** C15, C17, C18, C19 *)
Require Import List Arith NArith Lia.
From Verif Require Import BytesLib BitsLib CodecModel CodecSpec CodecProofs AddrProofs FixedProofs.
Import ListNotations.
Open Scope N_scope.

(** C15: a block header (tx_count, tx_hash) commits to the transactions: [ser] gives the byte string hashed for a transaction *)
Theorem C15_tx_hash_binds : forall (sha : bytes -> bytes) (TX : Type) (ser : TX -> bytes) (l1 l2 : list TX),
  (forall x, length (sha x) = 32%nat) ->
  length l1 = length l2 -> calc_tx_hash sha ser l1 = calc_tx_hash sha ser l2 ->
  map ser l1 = map ser l2 \/ collision_between sha (hashed sha ser l1) (hashed sha ser l2).
Proof. intros sha TX ser l1 l2 H. exact (tx_hash_binds sha H TX ser l1 l2). Qed.
Print Assumptions C15_tx_hash_binds.

(** a toy hash with 32 byte results, to see that the hypothesis can be met and that the count is needed: a list of four
    transactions and one of two have the same root *)
Definition toy_sha (x : bytes) : bytes := le_bytes 32 (fold_left (fun h b => (h * 1000003 + b + 17) mod 2 ^ 256) x 5).
Example C15_ex_len : forall x, length (toy_sha x) = 32%nat.
Proof. intros. apply le_length. Qed.
Example C15_ex_odd : calc_tx_hash toy_sha (fun x => [x]) [1; 2; 3] <> calc_tx_hash toy_sha (fun x => [x]) [1; 3; 2].
Proof. intros H. vm_compute in H. discriminate. Qed.
Example C15_ex_count_needed : let h x := toy_sha x in
  calc_tx_hash toy_sha (fun x => x) [[1]; [2]; [3]; [4]] =
  calc_tx_hash toy_sha (fun x => x) [h [1] ++ h [2]; h [3] ++ h [4]].
Proof. vm_compute. reflexivity. Qed.

(** C17 *)
Theorem C17_round_trip : forall (sha : bytes -> bytes) (W : Type) (weq : forall a b : W, {a = b} + {a <> b}) (wordlist : list W) seed,
  (forall x, bytes_ok (sha x)) -> NoDup wordlist -> length wordlist = 2048%nat ->
  length seed = 32%nat -> bytes_ok seed ->
  exists words, seed_to_words sha seed wordlist = Some words /\ length words = 24%nat /\
    Forall (fun w => In w wordlist) words /\ words_to_seed sha weq words wordlist = Some seed.
Proof. intros sha W weq wl seed Hs ND WL. exact (words_round_trip sha weq wl ND WL Hs seed). Qed.
Print Assumptions C17_round_trip.

(** An accepted phrase consists of the 23 words that encode the upper bits of the seed, and of a last word whose upper 3 bits
    are the low bits of the seed and whose lower 8 bits are a checksum of the seed (in either byte order). *)
Theorem C17_checksum : forall (sha : bytes -> bytes) (W : Type) (weq : forall a b : W, {a = b} + {a <> b}) (wordlist : list W) words seed,
  (forall x, bytes_ok (sha x)) -> length wordlist = 2048%nat ->
  words_to_seed sha weq words wordlist = Some seed ->
  length seed = 32%nat /\ bytes_ok seed /\
  exists good w i, seed_to_words sha seed wordlist = Some good /\
    words = firstn 23 good ++ [w] /\ nth_error wordlist (N.to_nat i) = Some w /\ i / 256 = of_le seed mod 8 /\
    (i mod 256 = nth 0 (sha (be_bytes 32 (of_le seed))) 0 \/ i mod 256 = nth 0 (sha (le_bytes 32 (of_le seed))) 0).
Proof. intros sha W weq wl words seed Hs WL. exact (words_accepted sha weq wl WL Hs words seed). Qed.
Print Assumptions C17_checksum.

Example C17_ex_hyp : NoDup (seq 0 2048) /\ length (seq 0 2048) = 2048%nat /\ (forall x, bytes_ok (toy_sha x)).
Proof. split; [apply seq_NoDup|]. split; [apply seq_length|]. intros. apply le_ok. Qed.
Definition ex_seed : bytes := le_bytes 32 (123456789 ^ 9).
Example C17_ex : seed_to_words toy_sha ex_seed (seq 0 2048) <> None /\
  option_map (fun w => words_to_seed toy_sha Nat.eq_dec w (seq 0 2048)) (seed_to_words toy_sha ex_seed (seq 0 2048)) = Some (Some ex_seed) /\
  option_map (fun w => words_to_seed toy_sha Nat.eq_dec (firstn 23 w ++ [Nat.lxor 1 (nth 23 w O)]) (seq 0 2048))
    (seed_to_words toy_sha ex_seed (seq 0 2048)) = Some None.
Proof. vm_compute. repeat split; discriminate. Qed.

(** C18 *)
Theorem C18_round_trip : forall a, length a = 32%nat -> bytes_ok a -> addr_from_string (addr_to_string a) = Some a.
Proof. exact addr_round_trip. Qed.
Print Assumptions C18_round_trip.
Theorem C18_injective : forall a b, length a = 32%nat -> bytes_ok a -> length b = 32%nat -> bytes_ok b ->
  addr_to_string a = addr_to_string b -> a = b.
Proof.
  intros a b La Oa Lb Ob E. pose proof (addr_round_trip a La Oa) as Ra. rewrite E, (addr_round_trip b Lb Ob) in Ra. congruence.
Qed.
Print Assumptions C18_injective.
Example C18_ex : length ex_seed = 32%nat /\ bytes_ok ex_seed /\ addr_from_string (addr_to_string ex_seed) = Some ex_seed /\
  length (addr_to_string ex_seed) = 62%nat.
Proof. split; [reflexivity|]. split; [apply le_ok|]. split; vm_compute; reflexivity. Qed.

(** C19 *)
Theorem C19_round_trip : forall x, x < 2 ^ 128 -> fix_from_string (fix_to_string x) = Some x.
Proof. exact fix_round_trip. Qed.
Print Assumptions C19_round_trip.
(** [x] stands for x / 10^15 coins, an amount [n] with [d] decimals for n / 10^d coins *)
Theorem C19_no_value_created : forall x d, fix_to_amount x d * 10 ^ 15 <= x * 10 ^ N.of_nat d.
Proof. exact to_amount_le. Qed.
Print Assumptions C19_no_value_created.
Theorem C19_amount_round_trip : forall v d x, (d <= 15)%nat -> v < 2 ^ 128 -> fix_of_amount v d = Some x -> fix_to_amount x d = v.
Proof. exact amount_round_trip. Qed.
Print Assumptions C19_amount_round_trip.
Theorem C19_amount_never_grows : forall v d x, fix_of_amount v d = Some x -> fix_to_amount x d <= v.
Proof. exact amount_never_grows. Qed.
Print Assumptions C19_amount_never_grows.

(** "12.000345", and the largest amount *)
Example C19_ex : fix_to_string 12000345000000000 = [49; 50; 46; 48; 48; 48; 51; 52; 53] /\
  fix_from_string [49; 50; 46; 48; 48; 48; 51; 52; 53] = Some 12000345000000000 /\
  fix_from_string (fix_to_string (2 ^ 128 - 1)) = Some (2 ^ 128 - 1) /\
  fix_to_amount 12000345000000000 6 = 12000345 /\ fix_of_amount 12000345 6 = Some 12000345000000000.
Proof. vm_compute. auto. Qed.
