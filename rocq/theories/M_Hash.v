(* Hashing (FNV-1a 64) and SameQ.  atoms/*.go: Hash methods, sameq.go. *)
From Verif Require Import M_Syntax M_Float.
Open Scope Z_scope.

(* hash/fnv New64a: offset basis, xor then multiply modulo 2^64. Bytes are
   numbers 0..255.  Remainders and quotients by powers of two are written with
   bit operations (P_Hash.v: fnv_step_mod, low8_mod, high8_div). *)
Definition fnv_offset : N := 14695981039346656037%N.
Definition fnv_prime : N := 1099511628211%N.
Definition low64 (n : N) : N := N.land n 18446744073709551615.
Definition fnv_step (h b : N) : N := low64 (N.mul fnv_prime (N.lxor h b)).
Definition low8 (n : N) : N := N.land n 255.
Definition high8 (n : N) : N := N.shiftr n 8.
Definition fnv (bytes : list N) : N := fold_left fnv_step bytes fnv_offset.

Fixpoint str_bytes (s : string) : list N :=
  match s with
  | EmptyString => []
  | String c t => N_of_ascii c :: str_bytes t
  end.

(* minimal big-endian bytes of a natural number (big.nat.bytes) *)
Fixpoint be_bytes_fuel (fuel : nat) (n : N) (acc : list N) : list N :=
  match fuel with
  | O => acc
  | S k => if (n =? 0)%N then acc else be_bytes_fuel k (high8 n) (low8 n :: acc)
  end.
Definition be_bytes (n : N) : list N := be_bytes_fuel (S (N.to_nat (N.size n))) n [].

(* fixed width big-endian *)
Fixpoint be_fixed (k : nat) (n : N) : list N :=
  match k with
  | O => []
  | S j => be_fixed j (high8 n) ++ [low8 n]
  end.

(* 8 bytes little-endian: binary.LittleEndian.PutUint64 *)
Definition le64 (n : N) : list N := rev (be_fixed 8 n).

(* math/big Int.GobEncode (intmarsh.go): version byte 1<<1, low bit = sign,
   then the magnitude without leading zeros. *)
Definition gob_int (z : Z) : list N :=
  (if z <? 0 then 3%N else 2%N) :: be_bytes (Z.abs_N z).

(* math/big Float.GobEncode (floatmarsh.go), prec 53, ToNearestEven (mode 0),
   one 64-bit mantissa word; exponent field is the exponent of 0.mant. *)
Definition gob_flt (f : flt) : list N :=
  match f with
  | FInf neg => 1%N :: ((1 * 8 + 2 * 2 + if neg then 1 else 0)%N) :: be_fixed 4 53%N
  | FFin neg m e acc =>
      if (m =? 0)%N
      then 1%N :: (Z.to_N ((acc + 1) * 8) + (if neg then 1 else 0))%N :: be_fixed 4 53%N
      else 1%N :: (Z.to_N ((acc + 1) * 8) + 2 + (if neg then 1 else 0))%N :: be_fixed 4 53%N
           ++ be_fixed 4 (Z.to_N ((e + 53) mod 2 ^ 32)) ++ be_fixed 8 (m * 2048)%N
  end.

(* The Hash methods: ex_symbol.go 252-261, ex_string.go 55-60,
   ex_integer.go 70-80, ex_rational.go 79-87, ex_real.go 92-98,
   ex_complex.go 68-77, ex_expression.go 233-246.
   Simplification: cached hashes are always recomputed. *)
Fixpoint hash (e : ex) : N :=
  match e with
  | ESym s => fnv ([107; 10; 247; 23; 33; 221; 163; 156]%N ++ str_bytes s)
  | EStr s => fnv ([102; 206; 57; 172; 207; 100; 198; 133]%N ++ str_bytes s)
  | EInt z => fnv ([242; 99; 84; 113; 102; 46; 118; 94]%N ++ gob_int z)
  | ERat n d => fnv ([90; 82; 214; 51; 52; 7; 7; 33]%N ++ gob_int n ++ gob_int d)
  | EFlt f => fnv ([195; 244; 76; 249; 227; 115; 88; 251]%N ++ gob_flt f)
  | ECplx a b => fnv ([82; 226; 223; 39; 113; 26; 149; 249]%N ++ le64 (hash a) ++ le64 (hash b))
  | EExpr l => fnv ([72; 5; 244; 86; 5; 210; 69; 30]%N ++
      (fix go (l : list ex) : list N :=
         match l with [] => [] | x :: t => le64 (hash x) ++ go t end) l)
  end.

(* atoms/sameq.go 12-27 *)
Definition is_sameq (a b : ex) : bool :=
  match a, b with
  | EFlt f, EFlt g =>
      match f64_bits f, f64_bits g with
      | Some x, Some y => almost_equal x y
      | _, _ => N.eqb (hash a) (hash b)
      end
  | _, _ => N.eqb (hash a) (hash b)
  end.
