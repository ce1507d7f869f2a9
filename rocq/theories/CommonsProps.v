(** Properties C03-C09: arithmetic and string helpers. *)
From Coq Require Import Ascii String.
From Verif Require Import Base Commons CommonsProofs.
Open Scope Z_scope.

(** C03 *)
Theorem C03_modulo_canonical : forall a b, 0 < b ->
  exists r, modulo a b = Ok r /\ 0 <= r < b /\ (b | a - r).
Proof. exact modulo_correct. Qed.
Print Assumptions C03_modulo_canonical.

Theorem C03_modulo_zero_undefined : forall a, modulo a 0 = Undefined.
Proof. reflexivity. Qed.
Print Assumptions C03_modulo_zero_undefined.

Example C03_ex : modulo (-7) 3 = Ok 2. Proof. reflexivity. Qed.

(** C04 *)
Theorem C04_floor : forall v c, 0 < c -> exists m, floor_to v c = Ok m /\ greatest_multiple_le c v m.
Proof. exact floor_to_correct. Qed.
Print Assumptions C04_floor.
Theorem C04_ceil : forall v c, 0 < c -> exists m, ceil_to v c = Ok m /\ least_multiple_ge c v m.
Proof. exact ceil_to_correct. Qed.
Print Assumptions C04_ceil.
Theorem C04_floord : forall v c, 0 < c -> exists m, floord v c = Ok m /\ greatest_multiple_lt c v m.
Proof. exact floord_correct. Qed.
Print Assumptions C04_floord.
Theorem C04_ceild : forall v c, 0 < c -> exists m, ceild v c = Ok m /\ least_multiple_gt c v m.
Proof. exact ceild_correct. Qed.
Print Assumptions C04_ceild.

Example C04_ex : floor_to (-7) 3 = Ok (-9) /\ ceil_to (-7) 3 = Ok (-6) /\
  floord (-6) 3 = Ok (-9) /\ ceild (-6) 3 = Ok (-3) /\ floord 7 3 = Ok 6 /\ ceild 7 3 = Ok 9.
Proof. repeat split. Qed.

(** C05 - the equation is solved for non-negative coefficients; any fuel above |b|
    suffices, so the loop terminates. *)
Theorem C05_extended_euclide_solves_partial : forall a b c fuel,
  0 <= a -> 0 <= b -> (a <> 0 \/ b <> 0) -> (Z.gcd a b | c) -> b <= Z.of_nat fuel ->
  exists x y, extended_euclide fuel a b c = Ok (x, y) /\ a * x + b * y = c.
Proof. exact extended_euclide_solves. Qed.
Print Assumptions C05_extended_euclide_solves_partial.

Theorem C05_extended_euclide_rejects : forall a b c fuel,
  (a <> 0 \/ b <> 0) -> ~ (Z.gcd a b | c) -> extended_euclide fuel a b c = Rejected.
Proof. exact extended_euclide_rejects. Qed.
Print Assumptions C05_extended_euclide_rejects.

(** For arbitrary signs the equation holds only up to sign... *)
Theorem C05_extended_euclide_up_to_sign_partial : forall a b c fuel,
  (a <> 0 \/ b <> 0) -> (Z.gcd a b | c) -> Z.abs b <= Z.of_nat fuel ->
  exists x y, extended_euclide fuel a b c = Ok (x, y) /\
    (a * x + b * y = c \/ a * x + b * y = - c).
Proof. exact extended_euclide_solves_up_to_sign. Qed.
Print Assumptions C05_extended_euclide_up_to_sign_partial.

(** ...and the wrong sign does occur: the statement for all integers is false. *)
Theorem C05_negative_coefficients_refuted :
  exists a b c x y, (Z.gcd a b | c) /\ extended_euclide 10 a b c = Ok (x, y) /\ a * x + b * y <> c.
Proof.
  exists (-3), 6, 3, (-1 * -1), 0. split; [exists 1; reflexivity|].
  split; [reflexivity|]. discriminate.
Qed.
Print Assumptions C05_negative_coefficients_refuted.

Example C05_ex : extended_euclide 50 21 15 6 = Ok (-4, 6) /\ 21 * -4 + 15 * 6 = 6.
Proof. split; reflexivity. Qed.

(** C06 - [fibo] is not the Fibonacci sequence but doubles at each step. *)
Theorem C06_fibo_is_fibonacci_refuted : exists n, fibo n <> fib n.
Proof. exists 4%nat. discriminate. Qed.
Print Assumptions C06_fibo_is_fibonacci_refuted.

Theorem C06_fibo_value_partial : forall n, fibo (S n) = 2 ^ Z.of_nat n.
Proof. exact fibo_is_power_of_two. Qed.
Print Assumptions C06_fibo_value_partial.

(** C07 *)
Theorem C07_split_sdf3_list : forall l, Forall item_ok l ->
  splitSDF3List (join_commas (map item_text l)) = Ok (flat_map item_meaning l).
Proof. exact splitSDF3List_correct. Qed.
Print Assumptions C07_split_sdf3_list.

Example C07_ex : splitSDF3List (txt "1,3*20,x"%string) =
  Ok [txt "1"%string; txt "20"%string; txt "20"%string; txt "20"%string; txt "x"%string].
Proof. reflexivity. Qed.
Example C07_ex_hyp : Forall item_ok
  [Single (txt "1"%string); Run (txt "12"%string) (txt "20"%string)].
Proof.
  repeat constructor; try discriminate; cbn; intros c H;
    repeat (destruct H as [<-|H]; [try reflexivity; discriminate|]); contradiction.
Qed.

(** C08 *)
Theorem C08_latexize_escapes : forall s fuel, (length s <= fuel)%nat ->
  latexize fuel s = Ok (escape_underscores s).
Proof. exact latexize_correct. Qed.
Print Assumptions C08_latexize_escapes.

Example C08_ex : latexize 10 (txt "a__b_"%string) = Ok (txt "a\_\_b\_"%string).
Proof. reflexivity. Qed.

(** C09 *)
Theorem C09_rgb_hex_roundtrip : forall r g b, 0 <= r < 256 -> 0 <= g < 256 -> 0 <= b < 256 ->
  length (convert_rgb_to_hex r g b) = 6%nat /\
  read_hex (convert_rgb_to_hex r g b) 0 = Some (r * 65536 + g * 256 + b).
Proof. exact convert_rgb_correct. Qed.
Print Assumptions C09_rgb_hex_roundtrip.

Example C09_ex : convert_rgb_to_hex 255 160 7 = txt "FFA007"%string.
Proof. reflexivity. Qed.
