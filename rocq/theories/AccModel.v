(** Accounts and key files of the wallet (src/Wallet.cpp).  Seeds, fingerprints, passphrases and file names are numbers; 0 is the empty text. *)
Require Import List Arith NArith Bool.
From Verif Require Import PrsModel FrmModel.
Import ListNotations.
Open Scope N_scope.

(** interface/account_t.vni; [c_rest]: index and name *)
Record cfg := mk_cfg { c_key : N; c_rest : N; c_num : N; c_fp : N; c_pass : bool; c_hidden : bool }.
Definition set_fp x c := mk_cfg (c_key c) (c_rest c) (c_num c) x (c_pass c) (c_hidden c).
Definition set_num x c := mk_cfg (c_key c) (c_rest c) x (c_fp c) (c_pass c) (c_hidden c).
Definition hide c := mk_cfg (c_key c) (c_rest c) (c_num c) (c_fp c) (c_pass c) true.
(** interface/KeyFile.vni: seed_value, finger_print *)
Definition key_file : Type := (N * option N)%type.

(** [files]: readable key files in storage_path; [wallets]: config and seed of each wallet; [accts]: accounts; [disk]: accounts in the config file *)
Record st := mk_st { files : list (N * key_file); wallets : list (option (cfg * N)); accts : list cfg; disk : list cfg }.
Definition set_wallets w s := mk_st (files s) w (accts s) (disk s).
Definition set_files f s := mk_st f (wallets s) (accts s) (disk s).
Definition set_both a s := mk_st (files s) (wallets s) a a.
Definition set_accts a s := mk_st (files s) (wallets s) a (disk s).
Fixpoint set_nth {A} (i : nat) (x : A) (l : list A) : list A := match l, i with [], _ => [] | _ :: r, O => x :: r | y :: r, S i => y :: set_nth i x r end.
Definition slot (i : nat) (s : st) : option (cfg * N) := match nth_error (wallets s) i with Some x => x | None => None end.

Section WALLET.
  Variables (fpr : N -> option N -> N)     (* get_finger_print, include/mmx/utils.h:327 *)
    (path_of : N -> N)                     (* "wallet_" + finger_print + ".dat" *)
    (max_keys : nat)                       (* max_key_files *)
    (max_addrs num_addrs : N)              (* max_addresses, num_addresses *)
    (keys : list N).                       (* key_files *)

  (** src/Wallet.cpp:917-955 add_account; the second component: true if it returns, false if it throws; what was changed before stays.  Includes ECDSA_Wallet::unlock (include/mmx/ECDSA_Wallet.h:73-82): only with a passphrase the fingerprint is compared.  Not modelled: addresses and the info file. *)
  Definition add_account (i : nat) (c : cfg) (pass : option N) (s : st) : st * bool :=
    let go s :=
      match get (c_key c) (files s) with
      | None => (s, false)
      | Some (seed, _) =>
        match c_pass c, pass with
        | true, None => (set_wallets (set_nth i (Some (c, seed)) (wallets s)) s, true)
        | _, _ =>
          let c := if c_fp c =? 0 then set_fp (fpr seed pass) c else c in
          (set_wallets (set_nth i (Some (c, seed)) (wallets s)) s, negb (c_pass c && negb (fpr seed pass =? c_fp c)))
        end
      end in
    if (length (wallets s) <=? i)%nat then go (set_wallets (wallets s ++ repeat None (S i - length (wallets s))) s)
    else match slot i s with Some _ => (s, false) | None => go s end.

  (** src/Wallet.cpp:957-976 create_account *)
  Definition create_account (c : cfg) (pass : option N) (s : st) : st * bool :=
    if (c_num c <? 1) || (max_addrs <? c_num c) then (s, false)
    else let '(s, ok) := add_account (max max_keys (length (wallets s))) c pass s in
         if ok then (set_both (accts s ++ [c]) s, true) else (s, false).

  (** src/Wallet.cpp:992-1031 import_wallet *)
  Definition import_wallet (c : cfg) (kf : key_file) (pass : option N) (s : st) : st * bool :=
    let fp := fpr (fst kf) pass in
    if match snd kf with Some f => negb (f =? fp) | None => false end then (s, false)
    else
      let c := mk_cfg (if c_key c =? 0 then path_of fp else c_key c) (c_rest c) (if c_num c =? 0 then num_addrs else c_num c) fp (match pass with Some _ => true | None => false end) (c_hidden c) in
      let old := get (c_key c) (files s) in
      if match old with Some (seed, _) => negb (seed =? fst kf) | None => false end then (s, false)
      else
        let '(s, ok) := create_account c pass (set_files (put (c_key c) kf (files s)) s) in
        if ok then (s, true)
        else (match old with Some _ => s | None => set_files (del (c_key c) (files s)) s end, false).
  (** src/Wallet.cpp:978-990 create_wallet; [seed]: from words, or random *)
  Definition create_wallet (c : cfg) (seed : N) (pass : option N) (s : st) : st * bool :=
    import_wallet c (seed, match pass with Some _ => Some (fpr seed pass) | None => None end) pass s.

  (** src/Wallet.cpp:1033-1041 export_wallet *)
  Definition export_wallet (i : nat) (s : st) : option key_file := match slot i s with Some (c, _) => get (c_key c) (files s) | None => None end.

  (** src/Wallet.cpp:1043-1064 remove_account *)
  Definition remove_account (i : nat) (s : st) : st * bool :=
    if (i <? max_keys)%nat then (s, false)
    else match slot i s with
         | None => (s, false)
         | Some _ => match nth_error (accts s) (i - max_keys) with
                     | None => (s, false)
                     | Some c => (set_wallets (set_nth i None (wallets s)) (set_both (set_nth (i - max_keys) (hide c) (accts s)) s), true)
                     end
         end.

  (** src/Wallet.cpp:1066-1093 set_address_count, for accounts ([i] from max_keys).  Where the code writes behind the end of wallets (1083), nothing is changed here. *)
  Definition set_address_count (i : nat) (n : N) (s : st) : st * bool :=
    if (n <? 1) || (max_addrs <? n) || (i <? max_keys)%nat then (s, false)
    else match nth_error (accts s) (i - max_keys) with
         | None => (s, false)
         | Some c =>
           let s := set_accts (set_nth (i - max_keys) (set_num n c) (accts s)) s in
           let '(s, ok) := add_account i (set_num n c) None (set_wallets (set_nth i None (wallets s)) s) in
           if ok then (set_both (accts s) s, true) else (s, false)
         end.

  (** src/Wallet.cpp:70-90 (main): the wallet starts with the accounts of the config file *)
  Definition load (s : st) : st :=
    let s := mk_st (files s) [] (disk s) (disk s) in
    let s := fold_left (fun s e => fst (add_account (fst e) (mk_cfg (snd e) 0 num_addrs 0 false false) None s)) (combine (seq 0 (length keys)) keys) s in
    fold_left (fun s e => if c_hidden (snd e) then s else fst (add_account (fst e) (snd e) None s)) (combine (seq max_keys (length (accts s))) (accts s)) s.

  Inductive op := Create (c : cfg) (pass : option N) | Import (c : cfg) (kf : key_file) (pass : option N) | New (c : cfg) (seed : N) (pass : option N) | Remove (i : nat) | SetCount (i : nat) (n : N) | Restart.
  Definition step (s : st) (o : op) : st * bool :=
    match o with
    | Create c p => create_account c p s
    | Import c k p => import_wallet c k p s
    | New c x p => create_wallet c x p s
    | Remove i => remove_account i s
    | SetCount i n => set_address_count i n s
    | Restart => (load s, true)
    end.
  Definition run (l : list op) (s : st) : st := fold_left (fun s o => fst (step s o)) l s.
  (** A wallet that starts with key files and no accounts *)
  Definition start (fs : list (N * key_file)) : st := load (mk_st fs [] [] []).

  (** src/Wallet.cpp:864-879 get_account, get_all_accounts: the accounts by their number *)
  Definition get_account (i : nat) (s : st) : option cfg := option_map fst (slot i s).
End WALLET.
