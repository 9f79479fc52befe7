(** * The parser of command lines (src/util/ArgParser.cpp, include/mutable/util/ArgParser.hpp)

    Strings are lists of bytes.  Options of floating-point types are not modelled.  A callback is an event: the number of the option and the value. *)
From Coq Require Import Arith List Bool ZArith String Ascii.
Import ListNotations.

Definition str := list nat.
(** String literals *)
Definition lit (s : string) : str := map nat_of_ascii (list_ascii_of_string s).
Fixpoint streq (a b : str) : bool :=
  match a, b with
  | [], [] => true
  | x :: a', y :: b' => (x =? y) && streq a' b'
  | _, _ => false
  end.

(** ** Numbers *)
(** The standard library's [strtol] and [strtoul] with base 10, as [std::stoi], [std::stol], [std::stoul], ... use them *)
Definition is_space (c : nat) : bool := (c =? 32) || ((9 <=? c) && (c <=? 13)).
Definition is_digit (c : nat) : bool := (48 <=? c) && (c <=? 57).
Fixpoint skip_space (s : str) : str := match s with c :: s' => if is_space c then skip_space s' else s | [] => [] end.
Fixpoint digits (s : str) (acc : Z) : Z := match s with c :: s' => if is_digit c then digits s' (10 * acc + Z.of_nat (c - 48)) else acc | [] => acc end.
Definition magnitude (s : str) : option Z := match s with c :: _ => if is_digit c then Some (digits s 0) else None | [] => None end.
(** Sign and magnitude; [None]: no conversion, [std::invalid_argument] *)
Definition strto (s : str) : option (bool * Z) :=
  match skip_space s with
  | c :: s' => if c =? 45 then option_map (pair true) (magnitude s') else if c =? 43 then option_map (pair false) (magnitude s')
               else option_map (pair false) (magnitude (c :: s'))
  | [] => None
  end.
(** ArgParser.cpp 26-63 ([help_parse]) for the signed types of 32 ([int]) and 64 bits; [None]: the program exits *)
Definition parse_signed (w : Z) (s : str) : option Z :=
  match strto s with
  | None => None
  | Some (neg, m) => let z := if neg : bool then (- m)%Z else m in
                     if ((- 2 ^ 63 <=? z) && (z <? 2 ^ 63))%Z
                     then if ((- 2 ^ (w - 1) <=? z) && (z <? 2 ^ (w - 1)))%Z then Some z else None
                     else None
  end.
(** ... and for the unsigned types: the magnitude must fit 64 bits; then it is negated modulo 2^64. *)
Definition parse_unsigned (w : Z) (s : str) : option Z :=
  match strto s with
  | None => None
  | Some (neg, m) => if (m <? 2 ^ 64)%Z
                     then let v := if neg : bool then ((- m) mod 2 ^ 64)%Z else m in
                          if (2 ^ w - 1 <? v)%Z then None else Some v
                     else None
  end.

(** ** Lists (ArgParser.cpp 127-152): the parts between commas *)
Fixpoint split (part s : str) : list str :=
  match s with
  | [] => [rev part]
  | c :: s' => if c =? 44 then rev part :: split [] s' else split (c :: part) s'
  end.
Definition parse_list (s : str) : list str := match s with [] => [] | _ => split [] s end.

(** ** Options *)
Inductive kind := KBool | KSigned (w : Z) | KUnsigned (w : Z) | KString | KList.
Inductive value := VBool | VInt (z : Z) | VStr (s : str) | VList (l : list str).
Record opt := mkopt { short_name : option str; long_name : option str; o_kind : kind }.
(** The value of an option with an argument *)
Definition parse_value (k : kind) (s : str) : option value :=
  match k with
  | KBool => Some VBool
  | KSigned w => option_map VInt (parse_signed w s)
  | KUnsigned w => option_map VInt (parse_unsigned w s)
  | KString => Some (VStr s)
  | KList => Some (VList (parse_list s))
  end.
(** ArgParser.hpp 83-107 ([add]): the names of all options, with the option's number *)
Fixpoint key_map (i : nat) (opts : list opt) : list (str * (nat * kind)) :=
  match opts with
  | [] => []
  | o :: opts' =>
      match short_name o with Some n => [(n, (i, o_kind o))] | None => [] end ++
      match long_name o with Some n => [(n, (i, o_kind o))] | None => [] end ++ key_map (S i) opts'
  end.
Fixpoint lookup (keys : list (str * (nat * kind))) (n : str) : option (nat * kind) :=
  match keys with
  | [] => None
  | (m, x) :: keys' => if streq m n then Some x else lookup keys' n
  end.

(** ** The command line *)
(** [Ran events args]: the callbacks invoked, in order, and the positional arguments; [Exit events]: the program has been ended by the parser;
    [Crash]: reads behind the end of [argv] *)
Inductive result := Ran (events : list (nat * value)) (args : list str) | Exit (events : list (nat * value)) | Crash.
Definition event (e : nat * value) (r : result) : result := match r with Ran es args => Ran (e :: es) args | Exit es => Exit (e :: es) | Crash => Crash end.
Definition positional (a : str) (r : result) : result := match r with Ran es args => Ran es (a :: args) | _ => r end.
Definition dashes : str := [45; 45].
(** [strneq(a, "--", 2)] *)
Definition starts_with_dashes (a : str) : bool := streq (firstn 2 a) dashes.
(** ArgParser.cpp 184-205 ([parse_args]) and 18-24 ([check_next_arg]) *)
Fixpoint parse_loop (keys : list (str * (nat * kind))) (argv : list str) : result :=
  match argv with
  | [] => Ran [] []
  | a :: rest =>
      if streq a dashes then Ran [] rest
      else match lookup keys a with
           | Some (i, KBool) => event (i, VBool) (parse_loop keys rest)
           | Some (i, k) => match rest with
                            | [] => Exit []
                            | v :: rest' => match parse_value k v with
                                            | Some x => event (i, x) (parse_loop keys rest')
                                            | None => Exit []
                                            end
                            end
           | None => if starts_with_dashes a then parse_loop keys rest else positional a (parse_loop keys rest)
           end
  end.
(** [argv] without its terminating null pointer; its first element, the name of the program, is skipped without a look. *)
Definition parse_args (opts : list opt) (argv : list str) : result :=
  match argv with
  | [] => Crash
  | _ :: args => parse_loop (key_map 0 opts) args
  end.
