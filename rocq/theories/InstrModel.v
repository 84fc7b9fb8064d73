(** Contract byte code packing: src/vm/instr_t.cpp, include/mmx/vm/instr_t.h.
    vnx::write / vnx::read of fixed size integers are little endian bytes; a failing read (end of input) is [None]. *)
Require Import List Arith NArith Bool.
From Verif Require Import BytesLib.
Import ListNotations.
Open Scope N_scope.

(** include/mmx/vm/instr_t.h:105-121 *)
Record instr := mk_instr { i_code : N; i_flags : N; i_a : N; i_b : N; i_c : N; i_d : N }.

(** src/vm/instr_t.cpp:26-76 with the codes of include/mmx/vm/instr_t.h:30-85: number of operands; 0 for other codes *)
Definition op_nargs (code : N) : nat :=
  let is l := existsb (N.eqb code) l in
  if is [0xA0; 0xA2; 0xA4; 0xC1; 0xC5] then 4
  else if is [0x20; 0x21; 0x22; 0x23; 0x24; 0x41; 0x42; 0x43; 0x44; 0x45; 0x46; 0x47; 0x60; 0x61; 0x62; 0x63; 0x64; 0x65;
              0x82; 0x83; 0xA1; 0xC2; 0xC6] then 3
  else if is [0x02; 0x03; 0x05; 0x06; 0x07; 0x40; 0x80; 0x81; 0x84; 0x85; 0x86; 0xA3; 0xC0; 0xC3; 0xC4; 0xC7] then 2
  else if is [0x01; 0x04] then 1
  else 0%nat.

(** src/vm/instr_t.cpp:104-107 *)
Definition encode_instr (i : instr) : N := N.lor (N.shiftl (i_flags i) 8) (i_code i).

(** the operands that are counted and written: lines 114-125, 172-184 *)
Definition used_args (i : instr) : list N := firstn (op_nargs (i_code i)) [i_a i; i_b i; i_c i; i_d i].

(** lines 111-127: all counted symbols *)
Definition all_symbols (code : list instr) : list N := flat_map (fun i => used_args i ++ [encode_instr i]) code.

(** lines 128-140: symbols that occur more than once, most frequent first, then by value; at most 0x7FFF + 0xFF of them *)
Fixpoint insert_sym (cnt : N -> nat) (x : N) (l : list N) : list N :=
  match l with
  | [] => [x]
  | y :: l' => if (cnt y <? cnt x)%nat || ((cnt x =? cnt y)%nat && (x <? y)) then x :: l else y :: insert_sym cnt x l'
  end.
Definition max_symbols : nat := N.to_nat (0x7FFF + 0xFF).
Definition sym_list (code : list instr) : list N :=
  let all := all_symbols code in
  let cnt x := count_occ N.eq_dec all x in
  firstn max_symbols (fold_right (insert_sym cnt) [] (filter (fun x => (1 <? cnt x)%nat) (nodup N.eq_dec all))).

(** lines 142-154: position of a symbol in the list *)
Fixpoint sym_index (x : N) (l : list N) (i : N) : option N :=
  match l with [] => None | y :: l' => if x =? y then Some i else sym_index x l' (i + 1) end.

(** lines 84-102 with the map of lines 142-154 *)
Definition encode_sym (sl : list N) (x : N) : bytes :=
  match sym_index x sl 0 with
  | Some i => if i <? 0xFF then le_bytes 1 i else le_bytes 3 (N.lor (N.shiftl (i - 0xFF) 8) 0xFF)
  | None =>
    if x <? 0x7FFF then le_bytes 3 (N.lor (N.shiftl (N.lor (N.shiftl 1 15) x) 8) 0xFF)
    else le_bytes 7 (N.lor (N.shiftl x 24) 0xFFFFFF)
  end.

(** lines 109-189 *)
Definition serialize_code (code : list instr) : bytes :=
  let sl := sym_list code in
  le_bytes 1 1 ++ le_bytes 4 (N.of_nat (length sl)) ++ flat_map (le_bytes 4) sl ++ le_bytes 4 (N.of_nat (length code)) ++
  flat_map (fun i => flat_map (encode_sym sl) (encode_instr i :: used_args i)) code.

Definition read_le (n : nat) (b : bytes) : option (N * bytes) :=
  if (length b <? n)%nat then None else Some (of_le (firstn n b), skipn n b).

(** lines 191-221 *)
Definition decode_sym (sl : list N) (b : bytes) : option (N * bytes) :=
  match read_le 1 b with
  | None => None
  | Some (first, b) =>
    if first <? 0xFF then
      match nth_error sl (N.to_nat first) with Some x => Some (x, b) | None => None end
    else
      match read_le 2 b with
      | None => None
      | Some (second, b) =>
        if second <? 0x7FFF then
          match nth_error sl (N.to_nat ((second + 0xFF) mod 2 ^ 16)) with Some x => Some (x, b) | None => None end
        else if second <? 0xFFFF then Some (N.land second 0x7FFF, b)
        else read_le 4 b
      end
  end.

(** lines 261-273: read [n] operands *)
Fixpoint decode_args (sl : list N) (n : nat) (b : bytes) : option (list N * bytes) :=
  match n with
  | O => Some ([], b)
  | S k => match decode_sym sl b with
           | None => None
           | Some (x, b) => match decode_args sl k b with Some (l, b) => Some (x :: l, b) | None => None end
           end
  end.

(** lines 223-230, 257-275 *)
Definition decode_one (sl : list N) (b : bytes) : option (instr * bytes) :=
  match decode_sym sl b with
  | None => None
  | Some (tmp, b) =>
    let code := N.land tmp 0xFF in
    let flags := N.land (N.shiftr tmp 8) 0xFF in
    match decode_args sl (op_nargs code) b with
    | None => None
    | Some (l, b) => Some (mk_instr code flags (nth 0 l 0) (nth 1 l 0) (nth 2 l 0) (nth 3 l 0), b)
    end
  end.
Fixpoint decode_many (sl : list N) (n : nat) (b : bytes) : option (list instr * bytes) :=
  match n with
  | O => Some ([], b)
  | S k => match decode_one sl b with
           | None => None
           | Some (i, b) => match decode_many sl k b with Some (l, b) => Some (i :: l, b) | None => None end
           end
  end.
Fixpoint read_list (n : nat) (b : bytes) : option (list N * bytes) :=
  match n with
  | O => Some ([], b)
  | S k => match read_le 4 b with
           | None => None
           | Some (x, b) => match read_list k b with Some (l, b) => Some (x :: l, b) | None => None end
           end
  end.

(** lines 232-277; the second component is the input that was not consumed *)
Definition deserialize_code (b : bytes) : option (list instr * bytes) :=
  match read_le 1 b with
  | None => None
  | Some (version, b) =>
    if negb (version =? 1) then None
    else match read_le 4 b with
         | None => None
         | Some (nsym, b) =>
           if 0x7FFF + 0xFF <? nsym then None
           else match read_list (N.to_nat nsym) b with
                | None => None
                | Some (sl, b) =>
                  match read_le 4 b with
                  | None => None
                  | Some (ninstr, b) => decode_many sl (N.to_nat ninstr) b
                  end
                end
         end
  end.
