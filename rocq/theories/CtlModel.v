(** How a node decides its vote on the block reward, from prices that it fetches: /repo/src/Node_control.cpp:21-410.
    Simplified: prices are rational numbers instead of doubles (a double that is not finite is [None]); the answers of the sources are reduced to what the code reads from them;
    the timer of update_control_deferred (47-54): an update may happen at any time. *)
Require Import List Arith NArith ZArith QArith Bool.
Import List ListNotations.
Open Scope Q_scope.

(** the keys of pending_fetch and failed_fetch, one for each file *)
Inductive source := GoldApi | Swissquote | GoldpriceDev | Safetrade | NonkycT | NonkycC.
Definition source_eqb (a b : source) : bool :=
  match a, b with
  | GoldApi, GoldApi | Swissquote, Swissquote | GoldpriceDev, GoldpriceDev | Safetrade, Safetrade | NonkycT, NonkycT | NonkycC, NonkycC => true
  | _, _ => false
  end.
(** a file.  [Spot]: an object; [labels]: the symbol, currency, unit, status and so on are as expected; [price]: as a finite number, if it is one.
    [BidAsk]: the array of swissquote with its first quote.  [Garbage]: everything else *)
Inductive content := Spot (labels : bool) (price : option Q) | BidAsk (bid ask : option Q) | Garbage.

(** [files]: with the time of the last write *)
Record state := mk { files : source -> option (Z * content); pending : list source; failed : list source; vote : Z }.
Definition start : state := mk (fun _ => None) [] [] 0.

(** 21-25 *)
Definition is_expired (s : state) (now : Z) (k : source) : bool :=
  match files s k with None => true | Some (t, _) => (t + 3600 * 24 <? now)%Z end.

(** 28-44: std::list::sort, pop_front and pop_back while there are more than two, and the mean of the rest *)
Fixpoint insert (x : Q) (l : list Q) : list Q :=
  match l with [] => [x] | y :: t => if Qle_bool x y then x :: l else y :: insert x t end.
Fixpoint sort (l : list Q) : list Q := match l with [] => [] | x :: t => insert x (sort t) end.
(** as many rounds as there are elements are enough: [trim_size] *)
Fixpoint trim (rounds : nat) (l : list Q) : list Q :=
  match rounds with
  | O => l
  | S n => if (2 <? List.length l)%nat then trim n (removelast (tl l)) else l
  end.
Definition total (l : list Q) : Q := fold_left Qplus l 0.
(** [None]: an exception *)
Definition get_median (values : list Q) : option Q :=
  match values with
  | [] => None
  | _ => let r := trim (List.length values) (sort values) in Some (total r / inject_Z (Z.of_nat (List.length r)))
  end.

(** price <= 0 is an error *)
Definition positive (p : option Q) : option Q := match p with Some x => if Qle_bool x 0 then None else Some x | None => None end.
(** 112-136, 154-186, 203-237, 288-306, 337-356: the price in a file; swissquote has the check of bid and ask (177) *)
Definition parse (k : source) (c : content) : option Q :=
  match k, c with
  | Swissquote, BidAsk b a =>
    match positive b, positive a with
    | Some b, Some a => if Qle_bool (b / a) (11 # 10) then Some ((b + a) / 2) else None
    | _, _ => None
    end
  | Swissquote, _ => None
  | _, Spot labels p => if labels then positive p else None
  | _, _ => None
  end.

(** 92-94: do_fetch; whether a request is started *)
Definition mem (k : source) (l : list source) : bool := existsb (source_eqb k) l.
Definition do_fetch (s : state) (k : source) : bool := negb (mem k (failed s)) && negb (mem k (pending s)).
(** one block of update_control: inputs so far, try_again, started so far *)
Definition acc := (state * list Q * bool * list source)%type.
Definition look (now : Z) (a : acc) (k : source) : acc :=
  let '(s, inputs, again, started) := a in
  if is_expired s now k then
    if do_fetch s k then (mk (files s) (k :: pending s) (failed s) (vote s), inputs, true, started ++ [k]) else (s, inputs, true, started)
  else match files s k with
       | Some (_, c) => match parse k c with Some p => (s, inputs ++ [p], again, started) | None => a end
       | None => a
       end.
Definition set_vote (s : state) (v : Z) : state := mk (files s) (pending s) (failed s) v.

Section NODE.
  (** params->target_mmx_gold_price, params->decimals *)
  Variable target : Q.
  Variable decimals : N.

  (** 249-268: the price at the configured swap; balances and decimals of the USD token; [None]: no swap is configured or something is missing *)
  Definition swap_price (swap : option (N * N * N)) : list Q :=
    match swap with
    | None => []
    | Some (b0, b1, usd_decimals) =>
      if (b0 =? 0)%N || (b1 =? 0)%N then []
      else [ (inject_Z (Z.of_N b1) / inject_Z (Z.of_N (10 ^ usd_decimals))) / (inject_Z (Z.of_N b0) / inject_Z (Z.of_N (10 ^ decimals))) ]
    end.
  (** 376-390 *)
  Definition decide (current : Q) : Z :=
    if negb (Qle_bool current (target * (101 # 100))) then -1 else if negb (Qle_bool (target / (101 # 100)) current) then 1 else 0.

  (** 65-393; also the requests that it starts *)
  Definition update_control (s : state) (now : Z) (swap : option (N * N * N)) : state * list source :=
    let '(s1, gold, again1, started1) := fold_left (look now) [GoldApi; Swissquote; GoldpriceDev] (s, [], false, []) in
    match get_median gold with
    | None => (if again1 then s1 else set_vote s1 0, started1)
    | Some g =>
      let '(s2, mmx, again2, started2) := fold_left (look now) [Safetrade; NonkycT; NonkycC] (s1, swap_price swap, again1, started1) in
      match get_median mmx with
      | None => (if again2 then s2 else set_vote s2 0, started2)
      | Some m => (set_vote s2 (decide (g / m)), started2)
      end
    end.

  (** what happens: an update; the hourly timer (56-63); a request that ends (67-90), with what it wrote, or failed *)
  Inductive event := Update (now : Z) (swap : option (N * N * N)) | Hourly | Fetched (k : source) (now : Z) (result : option content).
  Definition remove (k : source) (l : list source) : list source := filter (fun x => negb (source_eqb x k)) l.
  Definition step (s : state) (e : event) : state * list source :=
    match e with
    | Update now swap => update_control s now swap
    | Hourly => (mk (files s) (pending s) [] (vote s), [])
    | Fetched k now r =>
      (if mem k (pending s) then
         match r with
         | Some c => mk (fun x => if source_eqb x k then Some (now, c) else files s x) (remove k (pending s)) (remove k (failed s)) (vote s)
         | None => mk (files s) (remove k (pending s)) (k :: remove k (failed s)) (vote s)
         end
       else s, [])
    end.
  (** a run from the start; the requests started in each step *)
  Inductive run : list (event * list source) -> state -> Prop :=
  | run_start : run [] start
  | run_step tr s e : run tr s -> run (tr ++ [(e, snd (step s e))]) (fst (step s e)).
End NODE.
