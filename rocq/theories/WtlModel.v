(** Tokens that a wallet shows: the list in memory and the one in the config file.  Addresses are numbers, 0 is MMX.  Sets are lists of which only membership matters. *)
Require Import List Arith NArith Bool.
Import ListNotations.
Open Scope N_scope.
(** [file]: key "token_whitelist+" in the file of this wallet (config_path + vnx_name + ".json"); [mem]: token_whitelist *)
Record st := mk_st { file : list N; mem : list N }.
Definition member (a : N) (l : list N) : bool := existsb (N.eqb a) l.
Definition del (a : N) (l : list N) : list N := filter (fun x => negb (x =? a)) l.
(** Start: VNX reads "token_whitelist" (config/mainnet-rc/Wallet.json:2) and adds what is in "token_whitelist+" (config/local_init/Wallet.json:3); src/Wallet.cpp:58 adds MMX.  That reading of "+" is VNX's and is taken as such. *)
Definition start (defaults : list N) (f : list N) : st := mk_st f (0 :: defaults ++ f).
(** src/Wallet.cpp:1110-1117, 1119-1122 add_token: what is written to the file *)
Definition add_file (a : N) (f : list N) : list N := a :: del a f.
(** src/Wallet.cpp:1109-1124 add_token *)
Definition add_token (a : N) (s : st) : st := mk_st (add_file a (file s)) (a :: mem s).
(** src/Wallet.cpp:1128-1141 rem_token: what is written to the file; [None]: throws *)
Definition rem_file (a : N) (f : list N) : option (list N) := if member a f then Some (del a f) else None.
(** src/Wallet.cpp:1126-1146 rem_token *)
Definition rem_token (a : N) (s : st) : option st :=
  match rem_file a (file s) with
  | Some f => Some (mk_st f (if a =? 0 then mem s else del a (mem s)))
  | None => None
  end.
(** src/Wallet.cpp:1095-1107 get_token_list; [is_token]: whether the node has a contract of this address that is a TokenBase *)
Definition token_list (is_token : N -> bool) (s : st) : list N := 0 :: filter is_token (mem s).
(** Calls, restarts, and calls in which the wallet stops after the file is written *)
Inductive op := Add (a : N) | Rem (a : N) | Restart | Add_stop (a : N) | Rem_stop (a : N).
Definition step (defaults : list N) (s : st) (o : op) : st :=
  match o with
  | Add a => add_token a s
  | Rem a => match rem_token a s with Some t => t | None => s end
  | Restart => start defaults (file s)
  | Add_stop a => start defaults (add_file a (file s))
  | Rem_stop a => match rem_file a (file s) with Some f => start defaults f | None => start defaults (file s) end
  end.
Definition run (defaults : list N) (l : list op) : st := fold_left (step defaults) l (start defaults []).
