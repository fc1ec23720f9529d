(** Model of the regular bag expressions of rudof, crate [rbe].

    Simplifications (whole file):
    - symbols are naturals.  The validator instantiates the symbol type with
      [Component(usize)] (rbe/src/component.rs), so this is the instance used;
    - [usize] is an unbounded [nat];
    - a [Bag] (rbe/src/bag.rs, a HashBag) is the list of its elements in the order
      in which the bag is iterated, equal elements repeated.  Nothing is assumed
      about that order;
    - errors keep their constructor but drop the payload used only for messages,
      except [CardinalityFail]. *)

Require Import List Arith Bool Lia.
Import ListNotations.

(** ** rbe/src/max.rs *)

(** rbe/src/max.rs:10-14 *)
Inductive max := Unbounded | IntMax (n : nat).

(** rbe/src/max.rs:18-27 [Max::minus] *)
Definition max_minus (m : max) (n : nat) : max :=
  match m with
  | Unbounded => Unbounded
  | IntMax 0 => IntMax 0
  | IntMax m => IntMax (if n <? m then m - n else 0)
  end.

(** rbe/src/max.rs:30-35 [Max::greater_or_equal] *)
Definition max_ge (m : max) (n : nat) : bool :=
  match m with IntMax k => n <=? k | Unbounded => true end.

(** rbe/src/max.rs:38-45 [Max::greater_than] *)
Definition max_gt (a b : max) : bool :=
  match a, b with
  | Unbounded, Unbounded => false
  | Unbounded, IntMax _ => true
  | IntMax _, Unbounded => false
  | IntMax x, IntMax y => y <? x
  end.

(** rbe/src/max.rs:48-53 [Max::max] *)
Definition max_max (a b : max) : max :=
  match a, b with
  | Unbounded, _ => Unbounded
  | _, Unbounded => Unbounded
  | IntMax x, IntMax y => IntMax (Nat.max x y)
  end.

(** rbe/src/max.rs:56-64 [Max::min] *)
Definition max_min (a b : max) : max :=
  match a with
  | Unbounded => b
  | IntMax m => match b with
                | Unbounded => a
                | IntMax n => IntMax (Nat.min m n)
                end
  end.

(** rbe/src/max.rs:67-72 [Max::plus] *)
Definition max_plus (a b : max) : max :=
  match a, b with
  | Unbounded, _ => Unbounded
  | _, Unbounded => Unbounded
  | IntMax x, IntMax y => IntMax (x + y)
  end.

(** [usize::div_ceil] of the Rust standard library, for a non-zero divisor. *)
Definition div_ceil (v m : nat) : nat :=
  if v mod m =? 0 then v / m else S (v / m).

(** rbe/src/max.rs:75-84 [Max::div_up]: [v] divided by [m], rounded up *)
Definition div_up (m : max) (v : nat) : max :=
  match v, m with
  | 0, _ => IntMax 0
  | _, Unbounded => IntMax 1
  | _, IntMax 0 => Unbounded
  | v, IntMax m => IntMax (div_ceil v m)
  end.

(** rbe/src/max.rs:87-97 [Max::div_down]: [v] divided by [m], rounded down *)
Definition div_down (m : max) (v : nat) : max :=
  match v, m with
  | 0, IntMax 0 => Unbounded
  | 0, _ => IntMax 0
  | _, Unbounded => IntMax 1
  | _, IntMax 0 => Unbounded
  | v, IntMax m => IntMax (v / m)
  end.

Definition max_eqb (a b : max) : bool :=
  match a, b with
  | Unbounded, Unbounded => true
  | IntMax x, IntMax y => x =? y
  | _, _ => false
  end.

(** ** rbe/src/cardinality.rs *)

(** rbe/src/cardinality.rs:8-12; [Min] (rbe/src/min.rs:12-14) is a plain number *)
Record card := mkCard { cmin : nat; cmax : max }.

(** rbe/src/cardinality.rs:19-21 *)
Definition card_nullable (c : card) : bool := cmin c =? 0.
(** rbe/src/cardinality.rs:23-25 *)
Definition is_0_0 (c : card) : bool := (cmin c =? 0) && max_eqb (cmax c) (IntMax 0).
(** rbe/src/cardinality.rs:27-29 *)
Definition is_1_1 (c : card) : bool := (cmin c =? 1) && max_eqb (cmax c) (IntMax 1).
(** rbe/src/cardinality.rs:31-33 *)
Definition is_star (c : card) : bool := (cmin c =? 0) && max_eqb (cmax c) Unbounded.
(** rbe/src/cardinality.rs:35-37 *)
Definition is_plus (c : card) : bool := (cmin c =? 1) && max_eqb (cmax c) Unbounded.
(** rbe/src/cardinality.rs:39-41 *)
Definition card_contains (c : card) (n : nat) : bool :=
  (cmin c <=? n) && max_ge (cmax c) n.
(** rbe/src/cardinality.rs:43-56; [saturating_sub] is truncated subtraction *)
Definition card_minus (c : card) (n : nat) : card :=
  mkCard (Nat.max (cmin c - n) 0) (max_minus (cmax c) n).

Definition card_eqb (a b : card) : bool :=
  (cmin a =? cmin b) && max_eqb (cmax a) (cmax b).

(** ** rbe/src/interval.rs *)

(** rbe/src/interval.rs:7-10 *)
Record interval := mkInt { lo : max; hi : max }.
(** rbe/src/interval.rs:18-23 *)
Definition int_fail := mkInt (IntMax 1) (IntMax 0).
(** rbe/src/interval.rs:25-30 *)
Definition zero_any := mkInt (IntMax 0) Unbounded.
(** rbe/src/interval.rs:32-37 *)
Definition zero_zero := mkInt (IntMax 0) (IntMax 0).
(** rbe/src/interval.rs:39-44 *)
Definition one_any := mkInt (IntMax 1) Unbounded.
(** rbe/src/interval.rs:48-50 *)
Definition int_is_empty (i : interval) : bool :=
  match lo i with Unbounded => true | _ => max_gt (lo i) (hi i) end.
(** rbe/src/interval.rs:53-59 *)
Definition int_contains (i : interval) (v : nat) : bool :=
  (match lo i with Unbounded => false | IntMax n => n <=? v end) && max_ge (hi i) v.
(** rbe/src/interval.rs:62-66 *)
Definition int_inter (a b : interval) : interval :=
  mkInt (max_max (lo a) (lo b)) (max_min (hi a) (hi b)).
(** rbe/src/interval.rs:69-74 *)
Definition int_add (a b : interval) : interval :=
  mkInt (max_plus (lo a) (lo b)) (max_plus (hi a) (hi b)).

(** ** rbe/src/deriv_error.rs, payloads dropped except for [CardinalityFail] *)
Inductive derr :=
| UnexpectedEmpty
| MaxCardinalityZeroFoundValue
| CardinalityFail (symbol : nat) (expected : card) (current : nat)
| UnexpectedSymbol
| CardinalityZeroZeroDeriv
| OrValuesFail
| RangeLowerBoundBiggerMaxExpr
| RangeLowerBoundBiggerMax
| MkOrValuesFail
| DerivBagError
| NonNullable
| ExtraSymbolsClosed
| IntervalFailed
| CardinalityFailMulti (failures : list (nat * card * nat)).

(** ** rbe/src/rbe.rs *)

(** rbe/src/rbe.rs:30-59 *)
Inductive rbe :=
| Fail (e : derr)
| Empty
| Symbol (v : nat) (c : card)
| And (vs : list rbe)
| Or (vs : list rbe)
| Star (v : rbe)
| Plus (v : rbe)
| Repeat (v : rbe) (c : card).

(** derived [PartialEq] of [Rbe] (rbe/src/rbe.rs:29).  Errors are compared by
    nothing but being errors; the only caller, [mk_or], never compares two failing
    expressions at the top. *)
Fixpoint rbe_eqb (a b : rbe) : bool :=
  match a, b with
  | Fail _, Fail _ => false
  | Empty, Empty => true
  | Symbol v c, Symbol w d => (v =? w) && card_eqb c d
  | And vs, And ws =>
      (fix go (vs ws : list rbe) : bool :=
         match vs, ws with
         | [], [] => true
         | v :: vs, w :: ws => rbe_eqb v w && go vs ws
         | _, _ => false
         end) vs ws
  | Or vs, Or ws =>
      (fix go (vs ws : list rbe) : bool :=
         match vs, ws with
         | [], [] => true
         | v :: vs, w :: ws => rbe_eqb v w && go vs ws
         | _, _ => false
         end) vs ws
  | Star v, Star w => rbe_eqb v w
  | Plus v, Plus w => rbe_eqb v w
  | Repeat v c, Repeat w d => rbe_eqb v w && card_eqb c d
  | _, _ => false
  end.

(** rbe/src/rbe.rs:102-104 *)
Definition is_fail (e : rbe) : bool := match e with Fail _ => true | _ => false end.

(** rbe/src/rbe.rs:197-201, 230-253: the set of symbols, as a list *)
Fixpoint symbols (e : rbe) : list nat :=
  match e with
  | Fail _ => []
  | Empty => []
  | Symbol v _ => [v]
  | And vs => flat_map symbols vs
  | Or vs => flat_map symbols vs
  | Star v => symbols v
  | Plus v => symbols v
  | Repeat v _ => symbols v
  end.

(** rbe/src/rbe.rs:210-228 [symbol_cardinalities] *)
Fixpoint symbol_cardinalities (e : rbe) : list (nat * card) :=
  match e with
  | Fail _ => []
  | Empty => []
  | Symbol v c => [(v, c)]
  | And vs => flat_map symbol_cardinalities vs
  | Or vs => flat_map symbol_cardinalities vs
  | Star v => symbol_cardinalities v
  | Plus v => symbol_cardinalities v
  | Repeat v _ => symbol_cardinalities v
  end.

(** [Bag::contains] (rbe/src/bag.rs:33-35): multiplicity of a symbol *)
Definition bag := list nat.
Definition bag_count (b : bag) (x : nat) : nat := count_occ Nat.eq_dec b x.

(** rbe/src/rbe.rs:298-344 [mandatory_values]; [inl] is [Either::Left] *)
Fixpoint mandatory_values (e : rbe) : list derr + list nat :=
  match e with
  | Fail er => inl [er]
  | Empty => inr []
  | Symbol v c => if card_nullable c then inr [] else inr [v]
  | And vs =>
      let rs := map mandatory_values vs in
      let errors := flat_map (fun r => match r with inl es => es | inr _ => [] end) rs in
      let mandatory := flat_map (fun r => match r with inr ws => ws | inl _ => [] end) rs in
      match errors with [] => inr mandatory | _ => inl errors end
  | Or vs =>
      let rs := map mandatory_values vs in
      if existsb (fun r => match r with inr [] => true | _ => false end) rs
      then inr []
      else
        let errors := flat_map (fun r => match r with inl es => es | inr _ => [] end) rs in
        let mandatory := flat_map (fun r => match r with inr ws => ws | inl _ => [] end) rs in
        match mandatory with [] => inl errors | _ => inr mandatory end
  | Star _ => inr []
  | Plus v => mandatory_values v
  | Repeat v c => if cmin c =? 0 then inr [] else mandatory_values v
  end.

(** rbe/src/rbe.rs:348-350 *)
Definition is_nullable (e : rbe) : bool :=
  match mandatory_values e with inr [] => true | _ => false end.

(** rbe/src/rbe.rs:255-257 *)
Definition no_symbols_in_bag (e : rbe) (b : bag) : bool :=
  forallb (fun s => bag_count b s =? 0) (symbols e).

(** rbe/src/rbe.rs:106-195 [interval] *)
Fixpoint interval_of (e : rbe) (b : bag) : interval :=
  match e with
  | Fail _ => int_fail
  | Empty => zero_any
  | Symbol v c =>
      let wa := bag_count b v in
      mkInt (div_up (cmax c) wa) (div_down (IntMax (cmin c)) wa)
  | And vs => fold_left (fun acc v => int_inter acc (interval_of v b)) vs zero_any
  | Or vs =>
      fold_left (fun acc v =>
                   if int_is_empty acc then acc
                   else let iv := interval_of v b in
                        if int_is_empty iv then int_fail else int_add acc iv)
                vs zero_zero
  | Star v =>
      if no_symbols_in_bag e b then zero_any
      else let i := interval_of v b in
           if int_is_empty i then i else one_any
  | Plus v =>
      if no_symbols_in_bag e b
      then if is_nullable v then zero_any else zero_zero
      else let i := interval_of v b in
           if int_is_empty i then i else mkInt (IntMax 1) (hi i)
  | Repeat v c =>
      if no_symbols_in_bag e b
      then if card_nullable c || is_nullable v then zero_any else zero_zero
      else let inner := interval_of v b in
           if int_is_empty inner then inner
           else if int_is_empty (int_inter inner (mkInt (IntMax (cmin c)) (cmax c)))
                then int_fail
                else mkInt (IntMax 1) (IntMax 1)
  end.

(** rbe/src/rbe.rs:550-555 [bigger] *)
Definition bigger (n : nat) (m : max) : bool :=
  match m with Unbounded => false | IntMax k => k <? n end.

(** rbe/src/rbe.rs:462-485 [mk_range] *)
Definition mk_range (e : rbe) (c : card) : rbe :=
  if bigger (cmin c) (cmax c) then Fail RangeLowerBoundBiggerMaxExpr
  else if is_0_0 c then Empty
  else if is_1_1 c then e
  else match e with
       | Fail er => Fail er
       | Empty => Empty
       | e => Repeat e c
       end.

(** rbe/src/rbe.rs:487-504 [mk_range_symbol] *)
Definition mk_range_symbol (x : nat) (c : card) : rbe :=
  if bigger (cmin c) (cmax c) then Fail RangeLowerBoundBiggerMax else Symbol x c.

(** rbe/src/rbe.rs:506-519 [mk_and] *)
Definition mk_and (v1 v2 : rbe) : rbe :=
  match v1, v2 with
  | Empty, _ => v2
  | _, Empty => v1
  | Fail er, _ => Fail er
  | _, Fail er => Fail er
  | _, _ => And [v1; v2]
  end.

(** rbe/src/rbe.rs:534-548 [mk_or] *)
Definition mk_or (v1 v2 : rbe) : rbe :=
  match v1, v2 with
  | Fail _, _ => v2
  | _, Fail _ => v1
  | e1, e2 => if rbe_eqb e1 e2 then v1 else Or [v1; v2]
  end.

(** rbe/src/rbe.rs:521-532 [mk_or_values] *)
Definition mk_or_values (vs : list rbe) : rbe :=
  fold_left mk_or vs (Fail MkOrValuesFail).

(** rbe/src/deriv_n.rs:40-87 [deriv_n]: the variants of a vector in which one
    element is replaced by its image, positions with image [None] skipped. *)
Section DerivN.
  Context {T : Type} (d : T -> option T).
  Fixpoint deriv_n (v : list T) : list (list T) :=
    match v with
    | [] => []
    | x :: xs =>
        let rest := map (cons x) (deriv_n xs) in
        match d x with Some y => (y :: xs) :: rest | None => rest end
    end.
End DerivN.

Definition mem (x : nat) (l : list nat) : bool := existsb (Nat.eqb x) l.

(** rbe/src/rbe.rs:448-459: last part of [deriv_and] *)
Definition or_of_variants (vs : list (list rbe)) : rbe :=
  match vs with
  | [] => Fail OrValuesFail
  | [v] => And v
  | _ => Or (map And vs)
  end.

(** the closure passed to [deriv_n], rbe/src/rbe.rs:436-445 *)
Definition not_fail (d : rbe) : option rbe :=
  match d with Fail _ => None | _ => Some d end.

(** rbe/src/rbe.rs:352-430 [deriv] and 432-460 [deriv_and] (inlined in the
    [And] case) *)
Fixpoint deriv (e : rbe) (x n : nat) (open : bool) (controlled : list nat) : rbe :=
  match e with
  | Fail er => Fail er
  | Empty => if open && negb (mem x controlled) then Empty else Fail UnexpectedEmpty
  | Symbol v c =>
      if x =? v then
        if max_eqb (cmax c) (IntMax 0) then Fail MaxCardinalityZeroFoundValue
        else if max_ge (cmax c) n then mk_range_symbol x (card_minus c n)
        else Fail (CardinalityFail v c n)
      else if open && negb (mem x controlled) then Symbol v c
      else Fail UnexpectedSymbol
  | And vs =>
      or_of_variants (deriv_n (fun v => not_fail (deriv v x n open controlled)) vs)
  | Or vs => mk_or_values (map (fun v => deriv v x n open controlled) vs)
  | Plus v => mk_and (deriv v x n open controlled) (Star v)
  | Repeat v c =>
      if is_0_0 c then
        if is_nullable (deriv v x n open controlled)
        then Fail CardinalityZeroZeroDeriv
        else Empty
      else mk_and (deriv v x n open controlled) (mk_range v (card_minus c n))
  | Star v =>
      if open && negb (mem x controlled) then Star v
      else mk_and (deriv v x n open controlled) (Star v)
  end.

(** rbe/src/rbe.rs:259-292 [deriv_bag], over the elements in iteration order *)
Fixpoint deriv_bag (current : rbe) (b : bag) (open : bool) (controlled : list nat) : rbe :=
  match b with
  | [] => current
  | x :: b' =>
      match deriv current x 1 open controlled with
      | Fail _ => Fail DerivBagError
      | d => deriv_bag d b' open controlled
      end
  end.

(** [Result<(), DerivError>] *)
Definition outcome := option derr.

(** rbe/src/rbe.rs:71-89 [match_bag_deriv]; [None] is [Ok(())] *)
Definition match_bag_deriv (e : rbe) (b : bag) (open : bool) : outcome :=
  match deriv_bag e b open (symbols e) with
  | Fail er => Some er
  | d => if is_nullable d then None else Some NonNullable
  end.

(** ** rbe/src/rbe_struct.rs *)

(** rbe/src/rbe_struct.rs:9-16 *)
Record rbe_struct := mkRS { rs_rbe : rbe; rs_symbols : list nat; rs_repeats : bool }.

(** rbe/src/rbe_struct.rs:122-127 *)
Definition extra_symbols (r : rbe_struct) (b : bag) : list nat :=
  filter (fun s => negb (mem s (rs_symbols r))) b.

(** rbe/src/rbe_struct.rs:76-92: the violated cardinalities *)
Definition violations (r : rbe_struct) (b : bag) : list (nat * card * nat) :=
  flat_map (fun sc : nat * card =>
              let n := bag_count b (fst sc) in
              if card_contains (snd sc) n then [] else [(fst sc, snd sc, n)])
           (symbol_cardinalities (rs_rbe r)).

(** rbe/src/rbe_struct.rs:75-119 [diagnose_failure] *)
Definition diagnose_failure (r : rbe_struct) (b : bag) (open : bool) : derr :=
  match violations r b with
  | [] => match match_bag_deriv (rs_rbe r) b open with
          | Some er => er
          | None => IntervalFailed
          end
  | [(s, c, n)] => CardinalityFail s c n
  | vs => CardinalityFailMulti vs
  end.

(** rbe/src/rbe_struct.rs:46-65 [match_bag_interval] *)
Definition match_bag_interval (r : rbe_struct) (b : bag) (open : bool) : outcome :=
  if rs_repeats r then match_bag_deriv (rs_rbe r) b open
  else if negb open && negb (match extra_symbols r b with [] => true | _ => false end)
       then Some ExtraSymbolsClosed
       else if int_contains (interval_of (rs_rbe r) b) 1 then None
            else Some (diagnose_failure r b open).

(** rbe/src/rbe_struct.rs:129-135 *)
Definition rs_empty : rbe_struct := mkRS Empty [] false.
(** rbe/src/rbe_struct.rs:137-149 *)
Definition rs_symbol (x n : nat) (m : max) : rbe_struct := mkRS (Symbol x (mkCard n m)) [x] false.

(** rbe/src/rbe_struct.rs:227-237 [has_symbol_overlap]; a symbol set is a list
    without repetitions *)
Fixpoint symbol_overlap (seen : list nat) (items : list rbe_struct) : bool :=
  match items with
  | [] => false
  | it :: items' =>
      existsb (fun s => mem s seen) (rs_symbols it)
      || symbol_overlap (rs_symbols it ++ seen) items'
  end.

(** collecting into a [HashSet] *)
Definition to_set (l : list nat) : list nat := nodup Nat.eq_dec l.

(** rbe/src/rbe_struct.rs:151-164 *)
Definition rs_or (items : list rbe_struct) : rbe_struct :=
  mkRS (Or (map rs_rbe items)) (to_set (flat_map rs_symbols items))
       (existsb rs_repeats items || symbol_overlap [] items).
(** rbe/src/rbe_struct.rs:166-179 *)
Definition rs_and (items : list rbe_struct) : rbe_struct :=
  mkRS (And (map rs_rbe items)) (to_set (flat_map rs_symbols items))
       (existsb rs_repeats items || symbol_overlap [] items).
(** rbe/src/rbe_struct.rs:181-189 *)
Definition rs_opt (v : rbe_struct) : rbe_struct :=
  mkRS (Or [rs_rbe v; Empty]) (rs_symbols v) (rs_repeats v).
(** rbe/src/rbe_struct.rs:191-197 *)
Definition rs_plus (v : rbe_struct) : rbe_struct :=
  mkRS (Plus (rs_rbe v)) (rs_symbols v) (rs_repeats v).
(** rbe/src/rbe_struct.rs:199-205 *)
Definition rs_star (v : rbe_struct) : rbe_struct :=
  mkRS (Star (rs_rbe v)) (rs_symbols v) (rs_repeats v).
(** rbe/src/rbe_struct.rs:207-216 *)
Definition rs_repeat (v : rbe_struct) (n : nat) (m : max) : rbe_struct :=
  mkRS (Repeat (rs_rbe v) (mkCard n m)) (rs_symbols v) (rs_repeats v).

(** rbe/src/rbe_struct.rs:291-316 [From<Rbe>] *)
Fixpoint rs_from (e : rbe) : rbe_struct :=
  match e with
  | Empty => rs_empty
  | Symbol v c => mkRS (Symbol v c) [v] false
  | And vs => rs_and (map rs_from vs)
  | Or vs => rs_or (map rs_from vs)
  | Star v => rs_star (rs_from v)
  | Plus v => rs_plus (rs_from v)
  | Repeat v c => rs_repeat (rs_from v) (cmin c) (cmax c)
  | Fail _ => rs_empty
  end.
