(** Model of algorithms/priority_queues.h. *)
From Verif Require Import Outcome Model_Heap Spec_PriorityQueue.

Section M.
Context {V : Type}.

Definition INT_MAX_KEY : Z := 2147483647.

(* ---------- HeapQueue, 71-133; std::priority_queue with comparator 80-84 ---------- *)
Definition entry_le (a b : Z * V) : bool := (fst a <=? fst b)%Z.

Definition hq_push (h : list (Z * V)) (key : Z) (v : V) : outcome (list (Z * V)) :=   (* 101-104 *)
  let* _ := guard (negb (key =? INT_MAX_KEY)%Z) in heap_push entry_le h (key, v).
Definition hq_pop (h : list (Z * V)) : outcome ((Z * V) * list (Z * V)) := heap_pop entry_le h.   (* 106-111 *)
Definition hq_empty (h : list (Z * V)) : bool := match h with [] => true | _ => false end.   (* 113-115 *)

(* ---------- BucketQueue, 135-241 ---------- *)
Record bq := { bq_buckets : list (list V); bq_cur : nat; bq_num : nat; bq_pushes : Z }.   (* 143-146 *)
Definition bq_make : bq := {| bq_buckets := []; bq_cur := 0; bq_num := 0; bq_pushes := 0 |}.   (* 176-177 *)
Definition MIN_BUCKETS_BEFORE_SWITCH : Z := 100.   (* 137 *)

Definition valid_key (k : Z) : bool := (0 <=? k)%Z && negb (k =? INT_MAX_KEY)%Z.   (* 148-151 *)

(* 153-158: number of empty buckets at the front *)
Fixpoint leading_empty (bs : list (list V)) : nat :=
  match bs with [] :: t => S (leading_empty t) | _ => 0 end.
Definition update_current_bucket_no (q : bq) : nat :=
  bq_cur q + leading_empty (skipn (bq_cur q) (bq_buckets q)).

(* vector::resize *)
Definition resize_buckets (bs : list (list V)) (n : nat) : list (list V) := firstn n bs ++ repeat [] (n - length bs).

(* 160-174: the loop over the buckets from [key] on; [n] entries remain *)
Fixpoint extract_sorted (bs : list (list V)) (key : nat) (n : nat) : outcome (list (Z * V)) :=
  match n with
  | O => Ok []
  | _ =>
      match bs with
      | [] => UB
      | b :: t =>
          let* _ := guard (length b <=? n) in
          let* r := extract_sorted t (S key) (n - length b) in
          Ok (map (fun v => (Z.of_nat key, v)) b ++ r)
      end
  end.

(* 182-193 *)
Definition bq_push (q : bq) (key : Z) (v : V) : outcome bq :=
  let* _ := guard (valid_key key) in
  let* _ := guard (bq_pushes q + 1 <=? INT_MAX_KEY)%Z in
  let k := Z.to_nat key in
  let num_buckets := length (bq_buckets q) in
  let '(bs, cur) :=
    if num_buckets <=? k then (resize_buckets (bq_buckets q) (k + 1), bq_cur q)
    else if k <? bq_cur q then (bq_buckets q, k)
    else (bq_buckets q, bq_cur q) in
  let* b := vget bs k in
  let* bs' := vset bs k (b ++ [v]) in
  Ok {| bq_buckets := bs'; bq_cur := cur; bq_num := S (bq_num q); bq_pushes := bq_pushes q + 1 |}.

(* back() and pop_back() *)
Definition take_back (b : list V) : outcome (V * list V) :=
  match rev b with [] => UB | v :: r => Ok (v, rev r) end.

(* 195-203 *)
Definition bq_pop (q : bq) : outcome ((Z * V) * bq) :=
  match bq_num q with
  | O => UB
  | S n =>
      let cur := update_current_bucket_no q in
      let* b := vget (bq_buckets q) cur in
      let* r := take_back b in
      let* bs' := vset (bq_buckets q) cur (snd r) in
      Ok ((Z.of_nat cur, fst r), {| bq_buckets := bs'; bq_cur := cur; bq_num := n; bq_pushes := bq_pushes q |})
  end.

Definition bq_empty (q : bq) : bool := bq_num q =? 0.   (* 205-207 *)

(* 209-216: the buckets from current_bucket_no on; [n] entries remain *)
Fixpoint clear_loop (bs : list (list V)) (n : nat) : outcome (list (list V)) :=
  match n with
  | O => Ok bs
  | _ =>
      match bs with
      | [] => UB
      | b :: t =>
          let* _ := guard (length b <=? n) in
          let* t' := clear_loop t (n - length b) in
          Ok ([] :: t')
      end
  end.
(* 209-220 *)
Definition bq_clear (q : bq) : outcome bq :=
  let* t := clear_loop (skipn (bq_cur q) (bq_buckets q)) (bq_num q) in
  Ok {| bq_buckets := firstn (bq_cur q) (bq_buckets q) ++ t; bq_cur := 0; bq_num := 0; bq_pushes := 0 |}.

(* ---------- AdaptiveQueue, 243-283: the wrapped queue is one or the other ---------- *)
Inductive aq := AHeap (h : list (Z * V)) | ABucket (q : bq).
Definition aq_make : aq := ABucket bq_make.   (* 252-253 *)

(* 46-59 and 222-236; 128: the extracted entries become the heap's container *)
Definition convert_if_necessary (a : aq) (key : Z) : outcome aq :=
  match a with
  | AHeap h => Ok a
  | ABucket q =>
      let* _ := guard (valid_key key) in
      if (MIN_BUCKETS_BEFORE_SWITCH <=? key)%Z && (bq_pushes q <? key)%Z then
        let* es := extract_sorted (skipn (bq_cur q) (bq_buckets q)) (bq_cur q) (bq_num q) in
        Ok (AHeap es)
      else Ok a
  end.

(* 259-282 *)
Definition aq_step (a : aq) (op : pq_op V) : outcome (aq * pq_res V) :=
  match op with
  | QPush key v =>
      let* a1 := convert_if_necessary a key in
      match a1 with
      | AHeap h => let* h' := hq_push h key v in Ok (AHeap h', RNone)
      | ABucket q => let* q' := bq_push q key v in Ok (ABucket q', RNone)
      end
  | QPop =>
      match a with
      | AHeap h => let* r := hq_pop h in Ok (AHeap (snd r), REntry (fst (fst r)) (snd (fst r)))
      | ABucket q => let* r := bq_pop q in Ok (ABucket (snd r), REntry (fst (fst r)) (snd (fst r)))
      end
  | QEmpty => Ok (a, RBool (match a with AHeap h => hq_empty h | ABucket q => bq_empty q end))
  | QClear =>
      match a with
      | AHeap h => Ok (AHeap [], RNone)
      | ABucket q => let* q' := bq_clear q in Ok (ABucket q', RNone)
      end
  | QVirtual n =>   (* 131-132, 238-240 *)
      match a with
      | AHeap h => Ok (a, RNone)
      | ABucket q =>
          let* _ := guard (bq_pushes q + Z.of_nat n <=? INT_MAX_KEY)%Z in
          Ok (ABucket {| bq_buckets := bq_buckets q; bq_cur := bq_cur q; bq_num := bq_num q;
                         bq_pushes := bq_pushes q + Z.of_nat n |}, RNone)
      end
  end.

Fixpoint aq_run (a : aq) (ops : list (pq_op V)) : outcome (aq * list (pq_res V)) :=
  match ops with
  | [] => Ok (a, [])
  | op :: r =>
      let* x := aq_step a op in
      let* y := aq_run (fst x) r in
      Ok (fst y, snd x :: snd y)
  end.

(* the entries in a queue *)
Fixpoint bucket_entries (key : nat) (bs : list (list V)) : list (Z * V) :=
  match bs with
  | [] => []
  | b :: t => map (fun v => (Z.of_nat key, v)) b ++ bucket_entries (S key) t
  end.
Definition aq_entries (a : aq) : list (Z * V) :=
  match a with AHeap h => h | ABucket q => bucket_entries 0 (bq_buckets q) end.
End M.
Arguments aq : clear implicits.
Arguments bq : clear implicits.
