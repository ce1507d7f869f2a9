(** Model of the helpers of commons/commons.h and commons/commons.cpp. *)
From Coq Require Import Ascii String.
From Verif Require Import Base.
Open Scope Z_scope.

(** [modulo], commons/commons.h 520-524. *)
Definition modulo (a b : Z) : outcome Z :=
  do result <- cmod a b;
  Ok (if 0 <=? result then result else result + b).

(** [floor(entier v, entier c)], commons/commons.h 465-466, and [flooru] 467-468.
    The long double quotient is modelled as the exact quotient; casting the
    infinite/NaN result of a division by zero to an integer is undefined. *)
Definition floor_to (v c : Z) : outcome Z :=
  if c =? 0 then Undefined else Ok (v / c * c).

(** [ceil(entier v, entier c)], commons/commons.h 463-464, and [ceilu] 469-470. *)
Definition ceil_to (v c : Z) : outcome Z :=
  if c =? 0 then Undefined else Ok (- ((- v) / c) * c).

(** [ceild], commons/commons.h 471-472. *)
Definition ceild (v c : Z) : outcome Z :=
  do r <- cmod v c; if r =? 0 then Ok (v + c) else ceil_to v c.

(** [floord], commons/commons.h 474-475. *)
Definition floord (v c : Z) : outcome Z :=
  do r <- cmod v c; if r =? 0 then Ok (v - c) else floor_to v c.

(** Loop of [extended_euclide], commons/commons.h 546-551, fuelled. *)
Fixpoint euclide_loop (fuel : nat) (r s t : Z * Z) : outcome ((Z * Z) * (Z * Z) * (Z * Z)) :=
  if snd r =? 0 then Ok (r, s, t)
  else match fuel with
       | O => Timeout
       | S f =>
         do q <- cdiv (fst r) (snd r);
         euclide_loop f (snd r, fst r - q * snd r)
                        (snd s, fst s - q * snd s)
                        (snd t, fst t - q * snd t)
       end.

(** [extended_euclide], commons/commons.h 528-562. *)
Definition extended_euclide (fuel : nat) (a0 b0 c0 : Z) : outcome (Z * Z) :=
  let g := Z.gcd a0 b0 in                                     (* 534 *)
  do m <- cmod c0 g;
  do _ <- cassert (m =? 0);                                   (* 536 *)
  do a <- cdiv a0 g; do b <- cdiv b0 g; do c <- cdiv c0 g;    (* 538-540 *)
  do (_, s, t) <- euclide_loop fuel (a, b) (1, 0) (0, 1);     (* 542-551 *)
  Ok (c * fst s, c * fst t).                                  (* 560 *)

(** Loop of [fibo], commons/commons.cpp 172-176. *)
Fixpoint fibo_loop (index : nat) (fib_n fib_np : Z) : Z * Z :=
  match index with
  | O => (fib_n, fib_np)
  | S i => let swap := fib_np in fibo_loop i fib_np (swap + fib_np)
  end.

(** [fibo], commons/commons.cpp 169-178 (int overflow not modelled). *)
Definition fibo (index : nat) : Z := fst (fibo_loop index 0 1).

(** * Strings: a [std::string] is a list of characters. *)
Definition chars := list ascii.
Definition txt (s : string) : chars := list_ascii_of_string s.
Definition c_under : ascii := "_"%char.
Definition c_back : ascii := "\"%char.
Definition c_comma : ascii := ","%char.
Definition c_star : ascii := "*"%char.

(** [std::string::find(c, pos)]: index of the first occurrence at or after [pos]. *)
Fixpoint find_char (c : ascii) (s : chars) : option nat :=
  match s with
  | [] => None
  | x :: s' => if Ascii.eqb x c then Some O
               else match find_char c s' with Some n => Some (S n) | None => None end
  end.
Definition find_from (c : ascii) (s : chars) (pos : nat) : option nat :=
  match find_char c (skipn pos s) with Some n => Some (pos + n)%nat | None => None end.

(** [std::string::replace(pos, 1, r)]. *)
Definition replace1 (s : chars) (pos : nat) (r : chars) : chars :=
  firstn pos s ++ r ++ skipn (S pos) s.

(** The while loop of [latexize], commons/commons.cpp 142-146, fuelled. *)
Fixpoint latexize_loop (fuel : nat) (nouveau : chars) (position : option nat) : outcome chars :=
  match position with
  | None => Ok nouveau
  | Some pos =>
    match fuel with
    | O => Timeout
    | S f =>
      let nouveau' := replace1 nouveau pos [c_back; c_under] in
      latexize_loop f nouveau' (find_from c_under nouveau' (pos + 2))
    end
  end.

(** [latexize], commons/commons.cpp 138-148. *)
Definition latexize (fuel : nat) (text : chars) : outcome chars :=
  latexize_loop fuel text (find_from c_under text 0).

(** [while (std::getline(ss, item, delim))] of [split], commons/commons.h 500-509:
    the items between delimiters; a trailing empty item is not produced. *)
Fixpoint getlines (delim : ascii) (s acc : chars) : list chars :=
  match s with
  | [] => match acc with [] => [] | _ => [rev acc] end
  | x :: s' => if Ascii.eqb x delim then rev acc :: getlines delim s' []
               else getlines delim s' (x :: acc)
  end.

Definition is_space (c : ascii) : bool :=
  let n := nat_of_ascii c in (Nat.eqb n 32 || (Nat.leb 9 n && Nat.leb n 13))%bool.

Fixpoint skip_spaces (s : chars) : chars :=
  match s with [] => [] | x :: s' => if is_space x then skip_spaces s' else s end.
Fixpoint take_word (s : chars) : chars :=
  match s with [] => [] | x :: s' => if is_space x then [] else x :: take_word s' end.

(** [fromString<std::string>], commons/commons.h 320-327: [stream >> t] skips leading
    white space and reads one word (empty if there is none). *)
Definition from_string_string (s : chars) : chars := take_word (skip_spaces s).

(** [split<std::string>], commons/commons.h 500-509. *)
Definition split (s : chars) (delim : ascii) : list chars :=
  map from_string_string (getlines delim s []).

Definition digit_value (c : ascii) : option Z :=
  let n := Z.of_nat (nat_of_ascii c) in
  if (48 <=? n) && (n <=? 57) then Some (n - 48) else None.

Fixpoint read_digits (s : chars) (acc : Z) : Z :=
  match s with
  | [] => acc
  | x :: s' => match digit_value x with
               | Some d => read_digits s' (10 * acc + d)
               | None => acc
               end
  end.

(** [fromString<int>], commons/commons.h 320-327: optional sign, then the leading
    digits; 0 when there is no digit.  Clamping on int overflow is not modelled. *)
Definition from_string_int (s : chars) : Z :=
  match skip_spaces s with
  | [] => 0
  | x :: s' => if Ascii.eqb x "-"%char then - read_digits s' 0
               else if Ascii.eqb x "+"%char then read_digits s' 0
               else read_digits (x :: s') 0
  end.

(** Body of the loop of [splitSDF3List], commons/commons.cpp 156-165. *)
Definition expand_item (it : chars) : outcome (list chars) :=
  match split it c_star with
  | [x] => Ok [x]
  | [n; x] => Ok (repeat x (Z.to_nat (from_string_int n)))
  | _ => Rejected
  end.

Fixpoint expand_items (l : list chars) : outcome (list chars) :=
  match l with
  | [] => Ok []
  | it :: l' => do h <- expand_item it; do t <- expand_items l'; Ok (h ++ t)
  end.

(** [splitSDF3List], commons/commons.cpp 152-167. *)
Definition splitSDF3List (s : chars) : outcome (list chars) :=
  expand_items (split s c_comma).

(** hexDigits[...], commons/commons.h 478. *)
Definition hex_digits : list ascii := txt "0123456789ABCDEF"%string.
Definition hex_digit (v : Z) : ascii := nth (Z.to_nat v) hex_digits "?"%char.

(** [ConvertRGBtoHex(int num)], commons/commons.h 477-484: i = 5 downto 0. *)
Definition convert_num_to_hex (num : Z) : chars :=
  map (fun i => hex_digit (Z.land (Z.shiftr num (i * 4)) 15)) [5; 4; 3; 2; 1; 0].

(** [ConvertRGBtoHex(int r, int g, int b)], commons/commons.h 486-492. *)
Definition convert_rgb_to_hex (r g b : Z) : chars :=
  convert_num_to_hex
    (Z.lor (Z.lor (Z.shiftl (Z.land r 255) 16) (Z.shiftl (Z.land g 255) 8)) (Z.land b 255)).
