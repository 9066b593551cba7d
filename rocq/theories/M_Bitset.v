(** Model of include/tnco/bitset.hpp (Bitset over boost::dynamic_bitset) and of
    the validation in tnco/bitset.py. Bit [i] of the bitset is element [i] of
    the list; the size of the bitset is the length of the list. Operators on two
    bitsets are only ever applied to equal sizes (boost requires it). *)
From Verif Require Import M_Base.
Set Implicit Arguments.

Definition bitset := list bool.

(** boost::dynamic_bitset::test as used in bitset.hpp:43,171. *)
Definition btest (b : bitset) (i : nat) : bool := nth i b false.

(** bitset.hpp:54 base_type(size): all bits clear. *)
Definition bempty (n : nat) : bitset := repeat false n.

(** bitset.hpp:60 this->set(x). *)
Definition bset (b : bitset) (i : nat) : bitset := upd b i true.

(** get_slices resets bits (greedy/utils.hpp, sliced_xs.reset(pos)). *)
Definition breset (b : bitset) (i : nat) : bitset := upd b i false.

(** bitset.hpp:82-104 operators. *)
Definition band (a b : bitset) : bitset := map2 andb a b.
Definition bor  (a b : bitset) : bitset := map2 orb a b.
Definition bxor (a b : bitset) : bitset := map2 xorb a b.
Definition bdiff (a b : bitset) : bitset := map2 (fun x y => andb x (negb y)) a b.
Definition bnot (a : bitset) : bitset := map negb a.

(** boost intersects / is_subset_of / is_proper_subset_of / any / count, bound in
    bitset.hpp:135-162,179. *)
Definition bany (a : bitset) : bool := existsb (fun x => x) a.
Definition bintersects (a b : bitset) : bool := bany (band a b).
Definition bsubset (a b : bitset) : bool := negb (bany (bdiff a b)).
Fixpoint beqb (a b : bitset) : bool :=
  match a, b with
  | [], [] => true
  | x :: a', y :: b' => Bool.eqb x y && beqb a' b'
  | _, _ => false
  end.
Definition bproper (a b : bitset) : bool := bsubset a b && negb (beqb a b).
Definition bcount (a : bitset) : nat := length (filter (fun x => x) a).

(** find_first / find_next (bitset.hpp:70-71): the first set bit at or after
    [i]; [None] is npos. *)
Fixpoint find_from (b : bitset) (i : nat) : option nat :=
  match b, i with
  | [], _ => None
  | true :: _, O => Some 0
  | false :: b', O => option_map S (find_from b' 0)
  | _ :: b', S i' => option_map S (find_from b' i')
  end.

(** bitset.hpp:68-80 visit/positions: the loop over find_first/find_next. The
    fuel is the size plus one. *)
Fixpoint visit_loop (fuel : nat) (b : bitset) (p : option nat) (acc : list nat)
  : res (list nat) :=
  match p with
  | None => Ok acc
  | Some q =>
      match fuel with
      | O => Err Fuel
      | S f => visit_loop f b (find_from b (S q)) (acc ++ [q])
      end
  end.
Definition positions_loop (b : bitset) : res (list nat) :=
  visit_loop (S (length b)) b (find_from b 0) [].

(** positions() as a plain function; [positions_loop] is proved to return it. *)
Definition bpositions (b : bitset) : list nat :=
  filter (btest b) (seq 0 (length b)).

(** bitset.hpp:54-62 constructor from positions; throws if a position is too
    large. *)
Fixpoint bset_all (b : bitset) (pos : list nat) : res bitset :=
  match pos with
  | [] => Ok b
  | x :: pos' => if length b <=? x then Err Throw else bset_all (bset b x) pos'
  end.
Definition of_positions (pos : list nat) (size : nat) : res bitset :=
  bset_all (bempty size) pos.

(** bitset.hpp:40-46 conversion to string: '1'/'0', character [i] is bit [i].
    A character is a nat code here (48 is '0', 49 is '1'). *)
Definition to_chars (b : bitset) : list nat :=
  map (fun i => if btest b i then 49 else 48) (seq 0 (length b)).

(** bitset.hpp:64-66: the string is reversed and given to boost, whose string
    constructor takes its *last* character as bit 0 and rejects characters other
    than '0' and '1'. *)
Definition boost_of_chars (s : list nat) : res bitset :=
  if forallb (fun c => (c =? 48) || (c =? 49)) s
  then Ok (map (fun c => c =? 49) (rev s)) else Err Throw.
Definition of_chars (s : list nat) : res bitset := boost_of_chars (rev s).

(** bitset.hpp:182-184 pickle. *)
Definition bpickle (b : bitset) : list nat := to_chars b.
Definition bunpickle (s : list nat) : res bitset := of_chars s.

(** bitset.hpp:166-172 __getitem__. *)
Definition bgetitem (b : bitset) (pos : nat) : res bool :=
  if length b <=? pos then Err Throw else Ok (btest b pos).

(** tnco/bitset.py:61-88 Bitset.__init__ with positions: duplicates rejected,
    [n] mandatory and non-negative, [n < max(bits)] rejected, then the C++
    constructor (whose std::invalid_argument becomes ValueError). *)
Fixpoint has_dup (l : list nat) : bool :=
  match l with
  | [] => false
  | x :: l' => existsb (Nat.eqb x) l' || has_dup l'
  end.
Definition py_bitset_positions (pos : list nat) (n : option Z) : res bitset :=
  if has_dup pos then Err Throw else
  match n with
  | None => Err Throw
  | Some n =>
      if (n <? 0)%Z then Err Throw else
      if negb (length pos =? 0) && (n <? Z.of_nat (list_max pos))%Z then Err Throw
      else of_positions pos (Z.to_nat n)
  end.

(** tnco/bitset.py:49-60 Bitset.__init__ with a string. *)
Definition py_bitset_string (s : list nat) (n : option Z) : res bitset :=
  if existsb (fun c => negb ((c =? 48) || (c =? 49))) s then Err Throw else
  match n with
  | Some n => if (n =? Z.of_nat (length s))%Z then of_chars s else Err Throw
  | None => of_chars s
  end.
