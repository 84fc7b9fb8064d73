(** Text and hash codecs: block transaction tree hash (include/mmx/tree_hash.h), recovery phrases (src/mnemonic.cpp),
    address strings (src/addr_t.cpp), fixed-point amounts (src/fixed128.cpp).
    Byte strings and character strings are lists of numbers below 256; SHA-256 is a parameter. *)
Require Import List Arith NArith ZArith Bool.
From Verif Require Import BytesLib.
Import ListNotations.
Open Scope N_scope.

Section HASH.
  (** hash_t(data): SHA-256, src/hash_t.cpp:24-41 *)
  Variable sha : bytes -> bytes.

  (** include/mmx/tree_hash.h:23-31, one round of the loop; [tmp[i] + tmp[i + 1]] is the 64 byte concatenation
      (include/mmx/bytes_t.hpp:198-204), converted to hash_t by hashing it (include/mmx/hash_t.hpp:72-76) *)
  Fixpoint next_level (l : list bytes) : list bytes :=
    match l with
    | a :: b :: l' => sha (a ++ b) :: next_level l'
    | _ => l
    end.

  (** include/mmx/tree_hash.h:22-34; the fuel is the number of leaves, which bounds the number of rounds *)
  Fixpoint btree (fuel : nat) (l : list bytes) : bytes :=
    match fuel with
    | O => nth 0 l (repeat 0 32)
    | S f => if (1 <? length l)%nat then btree f (next_level l) else nth 0 l (repeat 0 32)
    end.
  (** include/mmx/tree_hash.h:18-36 *)
  Definition calc_btree_hash (l : list bytes) : bytes := btree (length l) l.

  (** src/Block.cpp:43-50: the leaves are the content hashes of the transactions. [ser] is the byte string hashed by
      Transaction::calc_hash(true) (src/Transaction.cpp:19-21, 129-172); Block::is_valid (src/Block.cpp:18-41) checks that
      content_hash is that hash. *)
  Definition calc_tx_hash {TX : Type} (ser : TX -> bytes) (txs : list TX) : bytes :=
    calc_btree_hash (map (fun tx => sha (ser tx)) txs).

  (** *** Recovery phrases. Words are of any type with decidable equality. *)
  Context {W : Type} (weq : forall a b : W, {a = b} + {a <> b}).

  (** src/mnemonic.cpp:23-37: indices in the order in which they are pushed *)
  Fixpoint seed_indices (n : nat) (bits : N) : list N :=
    match n with
    | O => []
    | S k => N.land bits 2047 :: seed_indices k (N.shiftr bits 11)
    end.
  (** hash_t(bytes_t<32>().from_uint(x, big_endian))[0], src/mnemonic.cpp:22,72-73 *)
  Definition checksum (x : N) (big_endian : bool) : N :=
    nth 0 (sha (if big_endian then be_bytes 32 x else le_bytes 32 x)) 0.

  (** src/mnemonic.cpp:16-40; hash_t::to_uint256 is little endian (include/mmx/bytes_t.hpp:133-146) *)
  Definition seed_to_words (seed : bytes) (wordlist : list W) : option (list W) :=
    if negb (length wordlist =? 2048)%nat then None
    else
      let bits := of_le seed in
      let first := N.lor (N.shiftl (N.land bits 7) 8) (N.land (checksum bits true) 255) in
      let idx := first :: seed_indices 23 (N.shiftr bits 3) in
      fold_right (fun i acc => match nth_error wordlist (N.to_nat i), acc with
                               | Some w, Some l => Some (l ++ [w])
                               | _, _ => None
                               end) (Some []) idx.

  (** src/mnemonic.cpp:50-53, 58: the last index at which the word occurs *)
  Fixpoint word_index (w : W) (l : list W) (i : N) : option N :=
    match l with
    | [] => None
    | x :: l' => match word_index w l' (i + 1) with
                 | Some j => Some j
                 | None => if weq w x then Some i else None
                 end
    end.

  (** src/mnemonic.cpp:54-70; [n] is the number of words still to read; uint256_t shifts drop high bits *)
  Fixpoint read_words (wordlist ws : list W) (n : nat) (seed : N) : option (N * N) :=
    match ws with
    | [] => None
    | w :: ws' =>
      match word_index w wordlist 0 with
      | None => None
      | Some i =>
        match n with
        | S k => read_words wordlist ws' k (N.lor (N.shiftl seed 11 mod 2 ^ 256) i)
        | O => Some (N.lor (N.shiftl seed 3 mod 2 ^ 256) (N.shiftr i 8), N.land i 255)
        end
      end
    end.

  (** src/mnemonic.cpp:42-80 *)
  Definition words_to_seed (words wordlist : list W) : option bytes :=
    if negb (length words =? 24)%nat then None
    else if negb (length wordlist =? 2048)%nat then None
    else match read_words wordlist words 23 0 with
         | None => None
         | Some (seed, cs) =>
           if negb (cs =? checksum seed false) && negb (cs =? checksum seed true) then None
           else Some (le_bytes 32 seed)
         end.
End HASH.

(** *** Address strings *)

(** src/addr_t.cpp:17-27: the 52 five-bit groups, most significant first *)
Fixpoint groups5 (n : nat) (bits : N) : list N :=
  match n with
  | O => []
  | S k => groups5 k (N.shiftr bits 5) ++ [N.land bits 31]
  end.
Definition addr_groups (addr : bytes) : list N :=
  let bits := of_le addr in
  groups5 51 (N.shiftr bits 1) ++ [N.shiftl (N.land bits 1) 4].

(** src/addr_t.cpp:46-55 *)
Definition addr_of_groups (dp : list N) : bytes :=
  let bits := fold_left (fun b i => N.shiftl (N.lor b (N.land (nth i dp 0) 31)) 5 mod 2 ^ 256) (seq 0 50) 0 in
  let bits := N.lor bits (N.land (nth 50 dp 0) 31) in
  let bits := N.shiftl bits 1 mod 2 ^ 256 in
  let bits := N.lor bits (N.land (N.shiftr (nth 51 dp 0) 4) 1) in
  le_bytes 32 bits.

(** The bech32 library (lib/libbech32 is an external submodule and not part of the tree): modelled after BIP-350.
    Five-bit groups are numbers below 32; characters are ASCII codes. *)
Definition b32_gen (b : N) : N :=
  let g i v := if N.testbit b i then v else 0 in
  N.lxor (g 0 0x3b6a57b2) (N.lxor (g 1 0x26508e6d) (N.lxor (g 2 0x1ea119fa) (N.lxor (g 3 0x3d4233dd) (g 4 0x2a1462b3)))).
Definition b32_step (c v : N) : N :=
  N.lxor (N.lxor (N.shiftl (N.land c 0x1ffffff) 5) v) (b32_gen (N.shiftr c 25)).
Definition b32_polymod (vs : list N) : N := fold_left b32_step vs 1.
Definition b32_expand (hrp : list N) : list N := map (fun c => N.shiftr c 5) hrp ++ [0] ++ map (fun c => N.land c 31) hrp.
Definition b32m_const : N := 0x2bc830a3.
Definition b32_checksum (hrp dp : list N) : list N :=
  let pm := N.lxor (b32_polymod (b32_expand hrp ++ dp ++ repeat 0 6)) b32m_const in
  map (fun i => N.land (N.shiftr pm (5 * (5 - i))) 31) [0; 1; 2; 3; 4; 5].
(** "qpzry9x8gf2tvdw0s3jn54khce6mua7l" *)
Definition b32_charset : list N :=
  [113;112;122;114;121;57;120;56;103;102;50;116;118;100;119;48;115;51;106;110;53;52;107;104;99;101;54;109;117;97;55;108].
Definition b32_char (v : N) : N := nth (N.to_nat v) b32_charset 0.
Definition b32_encode (hrp dp : list N) : list N :=
  hrp ++ [49] ++ map b32_char (dp ++ b32_checksum hrp dp).

Definition lower (c : N) : N := if (65 <=? c) && (c <=? 90) then c + 32 else c.
Definition is_upper (c : N) : bool := (65 <=? c) && (c <=? 90).
Definition is_lower (c : N) : bool := (97 <=? c) && (c <=? 122).
Fixpoint char_index (c : N) (l : list N) (i : N) : option N :=
  match l with [] => None | x :: l' => if c =? x then Some i else char_index c l' (i + 1) end.
Fixpoint map_opt {A B : Type} (f : A -> option B) (l : list A) : option (list B) :=
  match l with
  | [] => Some []
  | x :: l' => match f x, map_opt f l' with Some y, Some r => Some (y :: r) | _, _ => None end
  end.
(** position after the last '1' *)
Fixpoint split_last1 (s : list N) : option (list N * list N) :=
  match s with
  | [] => None
  | c :: s' => match split_last1 s' with
               | Some (a, b) => Some (c :: a, b)
               | None => if c =? 49 then Some ([], s') else None
               end
  end.
(** the data part of a valid Bech32m string (without its checksum), [None] for anything else *)
Definition b32m_decode (s : list N) : option (list N) :=
  if (90 <? length s)%nat || (length s <? 8)%nat then None
  else if negb (forallb (fun c => (33 <=? c) && (c <=? 126)) s) then None
  else if existsb is_upper s && existsb is_lower s then None
  else match split_last1 (map lower s) with
       | None => None
       | Some (hrp, data) =>
         if (length hrp =? 0)%nat || (length data <? 6)%nat then None
         else match map_opt (fun c => char_index c b32_charset 0) data with
              | None => None
              | Some vs =>
                if b32_polymod (b32_expand hrp ++ vs) =? b32m_const
                then Some (firstn (length vs - 6) vs) else None
              end
       end.

(** src/addr_t.cpp:15-27; "mmx" *)
Definition addr_to_string (addr : bytes) : list N := b32_encode [109; 109; 120] (addr_groups addr).

(** src/addr_t.cpp:29-56; [None]: an exception is thrown. "MMX" is the zero address. *)
Definition addr_from_string (s : list N) : option bytes :=
  if list_eq_dec N.eq_dec s [77; 77; 88] then Some (repeat 0 32)
  else match b32m_decode s with
       | None => None
       | Some dp => if negb (length dp =? 52)%nat then None else Some (addr_of_groups dp)
       end.

(** *** Fixed-point amounts *)

(** src/fixed128.cpp:18-27, include/mmx/fixed128.hpp:70: 15 decimals *)
Definition fix_decimals : nat := 15.
Definition fix_divider : N := 1000000000000000.
Definition w128 (x : N) : N := x mod 2 ^ 128.

(** decimal representation without leading zeros: uint128_t::str(10), std::to_string *)
Fixpoint dec_aux (fuel : nat) (x : N) : list N :=
  match fuel with
  | O => []
  | S f => if x <? 10 then [48 + x] else dec_aux f (x / 10) ++ [48 + x mod 10]
  end.
Definition dec (x : N) : list N := dec_aux (S (N.to_nat (N.size x))) x.

(** uint128_t(str, 10): digits only (anything else is an error) *)
Definition is_digit (c : N) : bool := (48 <=? c) && (c <=? 57).
Definition parse_dec (s : list N) : option N :=
  if forallb is_digit s then Some (fold_left (fun a c => w128 (a * 10 + (c - 48))) s 0) else None.

Fixpoint index_of (f : N -> bool) (s : list N) : option nat :=
  match s with
  | [] => None
  | c :: s' => if f c then Some O else match index_of f s' with Some i => Some (S i) | None => None end
  end.

(** while(fract.size() && fract.back() == '0') fract.pop_back() *)
Fixpoint strip_zeros (s : list N) : list N :=
  match s with
  | [] => []
  | c :: s' => match strip_zeros s' with
               | [] => if c =? 48 then [] else [c]
               | r => c :: r
               end
  end.

(** src/fixed128.cpp:98-113 *)
Definition fix_to_string (fixed : N) : list N :=
  let str := dec (fixed / fix_divider) in
  let lower := fixed mod fix_divider in
  if lower =? 0 then str
  else
    let fract := dec lower in
    str ++ [46] ++ repeat 48 (fix_decimals - length fract) ++ strip_zeros fract.

Fixpoint iter_n {A : Type} (n : nat) (f : A -> A) (x : A) : A :=
  match n with O => x | S k => iter_n k f (f x) end.

(** exponent: vnx::from_string<int>; an optional '-' and digits, anything else is an error here *)
Definition parse_exp (s : list N) : option Z :=
  match s with
  | 45 :: s' => match s' with [] => None | _ => match parse_dec s' with Some v => Some (- Z.of_N v)%Z | None => None end end
  | [] => None
  | _ => match parse_dec s with Some v => Some (Z.of_N v) | None => None end
  end.

(** src/fixed128.cpp:47-96; [None]: an exception is thrown *)
Definition fix_from_string (s : list N) : option N :=
  let is_dec c := (c =? 46) || (c =? 44) in
  let is_exp c := (c =? 101) || (c =? 69) in
  if (length s =? 0)%nat || negb (forallb (fun c => is_digit c || is_dec c || is_exp c || (c =? 45)) s) then None
  else
    let dec_pos := index_of is_dec s in
    let exp_pos := index_of is_exp s in
    match dec_pos, exp_pos with
    | None, None => match parse_dec s with Some v => Some (w128 (v * fix_divider)) | None => None end
    | _, _ =>
      let cut := match dec_pos, exp_pos with
                 | Some d, Some e => Nat.min d e
                 | Some d, None => d
                 | None, Some e => e
                 | None, None => length s
                 end in
      let integer := firstn cut s in
      if (length integer =? 0)%nat || negb (forallb is_digit integer) then None
      else
        match parse_dec integer with
        | None => None
        | Some iv =>
          let fixed := w128 (iv * fix_divider) in
          let fract := match dec_pos with
                       | None => []
                       | Some d =>
                         let f := match exp_pos with
                                  | Some e => if (d <? e)%nat then firstn (e - d - 1) (skipn (d + 1) s) else skipn (d + 1) s
                                  | None => skipn (d + 1) s
                                  end in
                         firstn fix_decimals f
                       end in
          match (match dec_pos with
                 | None => Some fixed
                 | Some _ => match parse_dec fract with
                             | None => None
                             | Some lower =>
                               Some (w128 (fixed + iter_n (fix_decimals - length fract) (fun x => w128 (x * 10)) lower))
                             end
                 end) with
          | None => None
          | Some fixed =>
            match exp_pos with
            | None => Some fixed
            | Some e =>
              match parse_exp (skipn (e + 1) s) with
              | None => None
              | Some x =>
                if (Z.of_nat fix_decimals - Z.of_nat (length fract) <? Z.abs x)%Z then None
                else if (0 <=? x)%Z then Some (iter_n (Z.to_nat x) (fun v => w128 (v * 10)) fixed)
                else Some (iter_n (Z.to_nat (- x)) (fun v => v / 10) fixed)
              end
            end
          end
        end
    end.

(** src/fixed128.cpp:35-45; [None]: "fixed128 overflow" *)
Definition fix_of_amount (value : N) (decimals : nat) : option N :=
  let tmp := iter_n decimals (fun x => x / 10) (value * fix_divider) in
  if 2 ^ 128 <=? tmp then None else Some tmp.

(** src/fixed128.cpp:120-132 *)
Definition fix_to_amount (fixed : N) (decimals : nat) : N :=
  if (decimals <? fix_decimals)%nat then iter_n (fix_decimals - decimals) (fun x => x / 10) fixed
  else iter_n (decimals - fix_decimals) (fun x => w128 (x * 10)) fixed.
