(** C01-C04: the field types of include/linalg/field.hpp. *)
From Coq Require Import ZArith Bool Lia Znumtheory QArith.
From Verif Require Import Outcome M_Field P_Field.
Local Open Scope Z_scope.

(** the prime moduli for which a product of residues fits in an int *)
Definition small_prime (P : Z) : Prop := prime P /\ P <> 2 /\ (P - 1) * (P - 1) < 2 ^ 31.

Lemma small_prime_bounds P : small_prime P -> 1 < P /\ 2 * P < 2 ^ 31 /\ P < 2 ^ 31.
Proof.
intros (pr & _ & PP); pose proof (prime_ge_2 P pr).
assert (P < 65536) by (rewrite p31 in PP; nia); rewrite p31; lia.
Qed.

(** C01: the compile-time primality check is right for every unsigned P. *)
Theorem C01_isprime (p : Z) : isprime p = Ok true <-> prime p.
Proof.
destruct (isprimeE p) as (r & E & H); rewrite E; split; [intros [= ->]; tauto|intros pr; f_equal; tauto].
Qed.

(** C01: on residues 0..P-1 the operations return the residues of the integer results, and nothing overflows. *)
Theorem C01_ring (P a b : Z) : small_prime P -> 0 <= a < P -> 0 <= b < P ->
  (modp_add P a b = Ok ((a + b) mod P) /\ modp_addeq P a b = Ok ((a + b) mod P)) /\
  (modp_sub P a b = Ok ((a - b) mod P) /\ modp_subeq P a b = Ok ((a - b) mod P)) /\
  (modp_mul P a b = Ok ((a * b) mod P) /\ modp_muleq P a b = Ok ((a * b) mod P)) /\
  modp_neg P a = (- a) mod P.
Proof.
intros H Ca Cb; destruct (small_prime_bounds P H) as (P0 & P2 & P31); destruct H as (pr & _ & PP).
split; [apply modp_add_ok; auto; lia|split; [apply modp_sub_ok; auto|split; [apply modp_mul_ok; auto|]]].
apply modp_neg_ok; auto.
Qed.

(** C01: inversion and division terminate and are inverse to multiplication; dividing by zero throws. *)
Theorem C01_inv (P a : Z) : small_prime P -> 0 <= a < P ->
  (a <> 0 -> exists y, modp_inv P a = Ok y /\ 0 <= y < P /\ (a * y) mod P = 1) /\ (a = 0 -> modp_inv P a = Throw).
Proof.
intros H Ca; destruct (small_prime_bounds P H) as (P0 & P2 & P31); destruct H as (pr & _ & PP).
split; [intros na; exact (modp_inv_ok P P0 P31 a pr PP Ca na)|intros ->; reflexivity].
Qed.

Theorem C01_div (P a b : Z) : small_prime P -> 0 <= a < P -> 0 <= b < P ->
  (b <> 0 -> exists q, modp_div P a b = Ok q /\ modp_diveq P a b = Ok q /\ 0 <= q < P /\ (q * b) mod P = a) /\
  (b = 0 -> modp_div P a b = Throw /\ modp_diveq P a b = Throw).
Proof.
intros H Ca Cb; destruct (small_prime_bounds P H) as (P0 & P2 & P31); destruct H as (pr & _ & PP).
split; [intros nb; exact (modp_div_ok P P0 P31 a b pr PP Ca Cb nb)|intros ->; split; reflexivity].
Qed.

(** C01: comparisons on residues, and against an int >= a - P (any nonnegative int in particular). *)
Theorem C01_compare (P a b : Z) : small_prime P -> 0 <= a < P -> 0 <= b < P ->
  (modp_eq a b = true <-> a = b) /\ modp_ne a b = negb (modp_eq a b) /\ (modp_lt P a b = true <-> a < b) /\
  (forall c, a - P <= c < 2 ^ 31 -> modp_eqint P a c = Ok (c mod P =? a)) /\
  (forall c, - 2 ^ 30 <= c <= a + P -> modp_neint P a c = Ok (negb (c mod P =? a))).
Proof.
intros H Ca Cb; destruct (small_prime_bounds P H) as (P0 & P2 & P31); destruct H as (pr & _ & PP).
unfold modp_eq, modp_ne, modp_lt, modp_eqint, modp_neint.
assert (K : forall c, ((c - a) mod P =? 0) = (c mod P =? a)).
  intros c; destruct (Z.eqb_spec (c mod P) a) as [e|ne].
    apply Z.eqb_eq; rewrite Zminus_mod, e, (Z.mod_small a P) by lia; rewrite Z.sub_diag; apply Z.mod_0_l; lia.
  apply Z.eqb_neq; intros e; apply ne.
  replace c with (c - a + a) by lia; rewrite Zplus_mod, e, Z.add_0_l, Z.mod_mod by lia; apply Z.mod_small; lia.
split; [apply Z.eqb_eq|split; [auto|split]].
  rewrite !u32_id by (rewrite p31, p32 in *; lia); rewrite !Z.mod_small by lia; apply Z.ltb_lt.
split; intros c Hc.
  rewrite i32_Ok by (rewrite p31 in *; lia); cbn [obind].
  rewrite u32_id by (rewrite p31, p32 in *; lia); replace (c - a + P) with (c - a + 1 * P) by lia.
  rewrite Z.mod_add by lia; now rewrite K.
rewrite i32_Ok by (change (2 ^ 30) with 1073741824 in *; rewrite p31 in *; lia); cbn [obind].
rewrite u32_id by (change (2 ^ 30) with 1073741824 in *; rewrite p31, p32 in *; lia).
replace (a - c + P) with (a - c + 1 * P) by lia; rewrite Z.mod_add by lia; rewrite <- K.
do 2 f_equal; destruct (Z.eqb_spec ((c - a) mod P) 0) as [e|ne].
  apply Z.eqb_eq; replace (a - c) with (- (c - a)) by lia; apply Z_mod_zero_opp_full; auto.
apply Z.eqb_neq; intros e; apply ne; replace (c - a) with (- (a - c)) by lia; apply Z_mod_zero_opp_full; auto.
Qed.

(** C01: the bound is sharp: for a larger prime the product of two residues overflows an int. *)
Theorem C01_overflow (P : Z) : 2 < P -> 2 ^ 31 <= (P - 1) * (P - 1) -> modp_mul P (P - 1) (P - 1) = UB.
Proof. intros H1 H2; unfold modp_mul; rewrite i32_UB by lia; reflexivity. Qed.

Lemma small_prime_3 : small_prime 3.
Proof. split; [exact prime_3|split; [discriminate|reflexivity]]. Qed.
Theorem C01_nonvacuous : exists P, small_prime P /\ P = 46337 /\ modp_mul P 46336 46335 = Ok 2 /\ modp_inv P 2 = Ok 23169.
Proof.
exists 46337; split; [split; [apply C01_isprime; vm_compute; reflexivity|split; [discriminate|reflexivity]]|].
split; [reflexivity|split; vm_compute; reflexivity].
Qed.

(** C02: the constructor is right exactly for the ints v >= -P: for every odd prime P and every int v < -P the
    stored value is not the residue of v, and the comparison with an int has the same fault. *)
Theorem C02_make (P v : Z) : prime P -> P <> 2 -> P < 2 ^ 31 -> - 2 ^ 31 <= v < 2 ^ 31 ->
  (modp_make P v = v mod P <-> - P <= v).
Proof.
intros pr ne P31 Hv; assert (P0 : 1 < P) by (pose proof (prime_ge_2 P pr); lia).
split; [intros E|intros H; apply make_ok; auto; lia].
destruct (Z_lt_le_dec v (- P)) as [lt|]; auto; exfalso.
rewrite make_bad in E by lia; apply (odd_prime_pow P 32 pr ne ltac:(lia)).
apply (shift_ne P P0 v); exact E.
Qed.

Theorem C02_additive_fails (P v : Z) : small_prime P -> - 2 ^ 31 <= v < - P ->
  exists s, modp_add P (modp_make P v) (modp_make P (- v - 1)) = Ok s /\ s <> modp_make P (-1).
Proof.
intros S Hv; destruct (small_prime_bounds P S) as (P0 & P2 & P31); destruct S as (pr & ne & PP).
assert (E1 : modp_make P v = (v + 2 ^ 32) mod P) by (apply make_bad; auto).
assert (E2 : modp_make P (- v - 1) = (- v - 1) mod P) by (apply make_ok; auto; lia).
assert (E3 : modp_make P (-1) = (-1) mod P) by (apply make_ok; auto; rewrite p31 in *; lia).
assert (C1 : 0 <= (v + 2 ^ 32) mod P < P) by (apply Z.mod_pos_bound; lia).
assert (C2 : 0 <= (- v - 1) mod P < P) by (apply Z.mod_pos_bound; lia).
rewrite E1, E2, E3; eexists; split; [apply modp_add_ok; auto; unfold canon; auto; lia|].
rewrite <- Zplus_mod; replace (v + 2 ^ 32 + (- v - 1)) with (-1 + 2 ^ 32) by lia.
intros E; apply (odd_prime_pow P 32 pr ne ltac:(lia)); exact (shift_ne P P0 _ _ E).
Qed.

Theorem C02_witness : modp_make 3 (-4) = 0 /\ (-4) mod 3 = 2.
Proof. split; vm_compute; reflexivity. Qed.

(** C03: ModP<int,2>: the parity of the stored int is a homomorphism to arithmetic mod 2; == is equality of parity;
    division by an even value throws. *)
Theorem C03_field (a b : Z) :
  (mod2_toint (mod2_add a b) = (a + b) mod 2) /\ (mod2_toint (mod2_sub a b) = (a - b) mod 2) /\
  (mod2_toint (mod2_neg a) = (- a) mod 2) /\
  (mod2_toint (mod2_mul a b) = (a * b) mod 2) /\
  (mod2_eq a b = true <-> a mod 2 = b mod 2) /\ mod2_ne a b = negb (mod2_eq a b) /\
  (mod2_lt a b = true <-> a mod 2 < b mod 2) /\ (mod2_iszero a = true <-> a mod 2 = 0) /\
  (b mod 2 = 1 -> exists q, mod2_div a b = Ok q /\ (q * b) mod 2 = a mod 2) /\
  (b mod 2 = 1 -> exists q, mod2_inv b = Ok q /\ (q * b) mod 2 = 1) /\
  (b mod 2 = 0 -> mod2_div a b = Throw /\ mod2_inv b = Throw).
Proof.
unfold mod2_toint, mod2_eq, mod2_ne, mod2_lt, mod2_iszero, mod2_div, mod2_inv, mod2_add, mod2_sub, mod2_neg, mod2_mul.
rewrite !land1; rewrite lxor_mod2, land_mod2.
assert (O : (- a) mod 2 = a mod 2).
  rewrite <- (Z.mod_add (- a) a 2) by lia; f_equal; lia.
assert (Sb : (a - b) mod 2 = (a + b) mod 2).
  rewrite <- (Z.mod_add (a - b) b 2) by lia; f_equal; lia.
split; [auto|split; [auto|split; [auto|split; [auto|]]]].
split; [apply Z.eqb_eq|split; [auto|split; [apply Z.ltb_lt|split; [apply Z.eqb_eq|]]]].
split; [|split].
- intros e; rewrite e; eexists; split; [reflexivity|].
  rewrite <- Z.mul_mod_idemp_r, e by lia; now rewrite Z.mul_1_r.
- intros e; rewrite e; exists 1; split; [reflexivity|]; now rewrite Z.mul_1_l.
- intros e; rewrite e; split; reflexivity.
Qed.

(** C03: [==] against an int compares parities, but [!=] is its complement only against 0 and 1: against every other
    int [!=] holds, so both hold whenever the parities agree.  Assignment from an int leaves the object unchanged. *)
Theorem C03_compare_int (a b : Z) :
  (mod2_eqint a b = true <-> a mod 2 = b mod 2) /\
  ((forall a', mod2_neint a' b = negb (mod2_eqint a' b)) <-> b = 0 \/ b = 1) /\
  (b <> 0 -> b <> 1 -> mod2_neint a b = true).
Proof.
unfold mod2_eqint, mod2_neint; rewrite !land1.
assert (B : 0 <= a mod 2 < 2) by (apply Z.mod_pos_bound; lia).
split; [apply Z.eqb_eq|split; [split|]].
- intros H; specialize (H b); rewrite !land1, Z.eqb_refl in H; simpl in H.
  apply negb_false_iff, Z.eqb_eq in H; pose proof (Z.mod_pos_bound b 2 ltac:(lia)); lia.
- intros H a'; rewrite !land1; now replace (b mod 2) with b by (destruct H; subst; reflexivity).
- intros n0 n1; apply negb_true_iff, Z.eqb_neq; lia.
Qed.

Theorem C03_incoherent (a b : Z) : b <> 0 -> b <> 1 -> a mod 2 = b mod 2 -> mod2_eqint a b = true /\ mod2_neint a b = true.
Proof.
intros n0 n1 e; destruct (C03_compare_int a b) as (H1 & _ & H3); split; [apply H1; auto|apply H3; auto].
Qed.

Theorem C03_assign_noop (x a : Z) : x mod 2 <> a mod 2 ->
  mod2_toint (fst (mod2_assign x a)) <> a mod 2 /\ mod2_toint (snd (mod2_assign x a)) = a mod 2.
Proof. unfold mod2_toint, mod2_assign; simpl; rewrite !land1; auto. Qed.

Theorem C03_nonvacuous : mod2_eqint 1 3 = true /\ mod2_neint 1 3 = true /\ mod2_toint (fst (mod2_assign 0 1)) = 0.
Proof. repeat split. Qed.

(** ** C04 *)
(** C04: construction from n/d with d <> 0, for an integer type of w bits that holds |n| and |d|. *)
Theorem C04_make (w n d : Z) : d <> 0 -> fits w (Z.abs n) -> fits w (Z.abs d) ->
  exists r, rat_make w n d = Ok r /\ ratwf r /\ (ratQ r == inject_Z n / inject_Z d)%Q.
Proof.
intros nd fn fd; destruct (rat_make_ok w n d nd fn fd) as (r & E & W & C); exists r; split; auto; split; auto.
assert (nz : ~ (inject_Z d == 0)%Q) by (unfold Qeq, inject_Z; simpl; lia).
apply (Qmult_inj_r _ _ (inject_Z d) nz).
transitivity (inject_Z n); [|field; auto].
unfold ratQ, Qeq, Qmult, inject_Z; simpl; rewrite Pos.mul_1_r, Z2Pos.id by apply W; lia.
Qed.

(** the rational number with numerator n and denominator d <> 0 *)
Lemma ratQ_cross r n d q : d <> 0 -> ratwf r -> fst r * d = n * snd r -> (q * inject_Z d == inject_Z n)%Q -> (ratQ r == q)%Q.
Proof.
intros nd W C Eq; assert (nz : ~ (inject_Z d == 0)%Q) by (unfold Qeq, inject_Z; simpl; lia).
apply (Qmult_inj_r _ _ (inject_Z d) nz); rewrite Eq.
unfold ratQ, Qeq, Qmult, inject_Z; simpl; rewrite Pos.mul_1_r, Z2Pos.id by apply W; lia.
Qed.

Lemma ratQ_den a : 0 < snd a -> (ratQ a * inject_Z (snd a) == inject_Z (fst a))%Q.
Proof. intros H; unfold ratQ, Qeq, Qmult, inject_Z; simpl; rewrite Pos.mul_1_r, Z2Pos.id by auto; lia. Qed.

Ltac iws := repeat match goal with
  | H : obind (iw ?w ?z) _ = Ok _ |- _ =>
     let f := fresh "f" in let e := fresh "e" in
     destruct (iw_inv w z) as [[f e]|[f e]]; rewrite e in H; cbn [obind] in H; [|discriminate]
  end.

(** C04: whenever an operation on canonical values does not overflow it returns the canonical value of the exact
    result. *)
Theorem C04_ops (w : Z) (a b r : Z * Z) : ratwf a -> ratwf b ->
  (rat_add w a b = Ok r -> ratwf r /\ (ratQ r == ratQ a + ratQ b)%Q) /\
  (rat_sub w a b = Ok r -> ratwf r /\ (ratQ r == ratQ a - ratQ b)%Q) /\
  (rat_mul w a b = Ok r -> ratwf r /\ (ratQ r == ratQ a * ratQ b)%Q) /\
  (rat_neg w a = Ok r -> ratwf r /\ (ratQ r == - ratQ a)%Q) /\
  (rat_div w a b = Ok r -> ratwf r /\ ~ (ratQ b == 0)%Q /\ (ratQ r == ratQ a / ratQ b)%Q) /\
  (rat_inv w a = Ok r -> ratwf r /\ ~ (ratQ a == 0)%Q /\ (ratQ r == / ratQ a)%Q).
Proof.
intros Wa Wb; assert (a0 : 0 < snd a) by apply Wa; assert (b0 : 0 < snd b) by apply Wb.
assert (ab : snd a * snd b <> 0) by nia.
assert (Qa := ratQ_den a a0); assert (Qb := ratQ_den b b0).
assert (Nz : forall c, 0 < snd c -> fst c <> 0 -> ~ (ratQ c == 0)%Q).
  intros c c0 nc; unfold ratQ, Qeq; simpl; lia.
assert (CR : forall n d q, d <> 0 -> rat_make w n d = Ok r -> (q * inject_Z d == inject_Z n)%Q ->
             ratwf r /\ (ratQ r == q)%Q).
  intros n d q nd H Eq; destruct (rat_make_inv w n d r nd H) as [W C]; split; auto; exact (ratQ_cross r n d q nd W C Eq).
unfold rat_add, rat_sub, rat_mul, rat_neg, rat_div, rat_inv.
split; [|split; [|split; [|split; [|split]]]]; intros H.
- iws; apply (CR _ _ _ ab H); rewrite inject_Z_plus, !inject_Z_mult, <- Qa, <- Qb; ring.
- iws; apply (CR _ _ _ ab H); unfold Z.sub; rewrite inject_Z_plus, inject_Z_opp, !inject_Z_mult, <- Qa, <- Qb; ring.
- iws; apply (CR _ _ _ ab H); rewrite !inject_Z_mult, <- Qa, <- Qb; ring.
- iws; apply (CR _ (snd a) _ ltac:(lia) H); rewrite inject_Z_opp, <- Qa; ring.
- destruct (Z.eqb_spec (fst b) 0) as [|nb]; [discriminate|]; iws.
  assert (nz : snd a * fst b <> 0) by nia.
  destruct (CR _ _ (ratQ a / ratQ b)%Q nz H); [|auto].
  rewrite !inject_Z_mult, <- Qa, <- Qb; field; auto.
- destruct (Z.eqb_spec (fst a) 0) as [|na]; [discriminate|].
  destruct (CR _ _ (/ ratQ a)%Q na H); [|auto].
  rewrite <- Qa; field; auto.
Qed.

(** C04: operations succeed when the numerators and denominators are at most m with 2 m^2 below the type's range;
    division by zero and inversion of zero throw. *)
Theorem C04_defined (w m : Z) (a b : Z * Z) : ratwf a -> ratwf b -> 2 * (m * m) < 2 ^ (w - 1) ->
  Z.abs (fst a) <= m -> snd a <= m -> Z.abs (fst b) <= m -> snd b <= m ->
  (exists r, rat_add w a b = Ok r) /\ (exists r, rat_sub w a b = Ok r) /\ (exists r, rat_mul w a b = Ok r) /\
  (exists r, rat_neg w a = Ok r) /\
  (fst b <> 0 -> exists r, rat_div w a b = Ok r) /\ (fst b = 0 -> rat_div w a b = Throw) /\
  (fst a <> 0 -> exists r, rat_inv w a = Ok r) /\ (fst a = 0 -> rat_inv w a = Throw) /\
  rat_lt w a b = Ok (fst a * snd b <? fst b * snd a).
Proof.
destruct a as [n d], b as [k e]; unfold ratwf; cbn [fst snd]; intros [d0 _] [e0 _] B H1 H2 H3 H4.
assert (M : forall x y, Z.abs x <= m -> Z.abs y <= m -> Z.abs (x * y) <= m * m) by (intros; rewrite Z.abs_mul; nia).
assert (m1 : 1 <= m) by lia; assert (mm : m <= m * m) by nia.
assert (M1 := M n e H1 ltac:(lia)); assert (M2 := M k d H3 ltac:(lia)); assert (M3 := M n k H1 H3).
assert (M4 := M d e ltac:(lia) ltac:(lia)); assert (M5 := M d k ltac:(lia) H3).
unfold rat_add, rat_sub, rat_mul, rat_neg, rat_div, rat_inv, rat_lt; cbn [fst snd].
assert (de : d * e <> 0) by nia.
repeat (rewrite iw_Ok by (unfold fits; lia); cbn [obind]).
assert (MK : forall x y, y <> 0 -> Z.abs x <= 2 * (m * m) -> Z.abs y <= m * m -> exists r, rat_make w x y = Ok r).
  intros x y ny hx hy; destruct (rat_make_ok w x y ny) as (r & E & _); [unfold fits; lia|unfold fits; lia|exists r; auto].
split; [apply MK; lia|split; [apply MK; lia|split; [apply MK; lia|split; [apply MK; lia|]]]].
split; [intros nk; rewrite (proj2 (Z.eqb_neq k 0)) by auto|split; [intros ->; reflexivity|]].
  repeat (rewrite iw_Ok by (unfold fits; lia); cbn [obind]); apply MK; [nia|lia|lia].
split; [intros nn; rewrite (proj2 (Z.eqb_neq n 0)) by auto; apply MK; lia|split; [intros ->; reflexivity|reflexivity]].
Qed.

(** C04: == decides equality of the rational numbers, != is its complement, comparison with an int and < are exact. *)
Theorem C04_compare (w : Z) (a b : Z * Z) : ratwf a -> ratwf b ->
  (rat_eq a b = true <-> (ratQ a == ratQ b)%Q) /\ rat_ne a b = negb (rat_eq a b) /\
  (forall z, (rat_eqint a z = true <-> (ratQ a == inject_Z z)%Q) /\ rat_neint a z = negb (rat_eqint a z)) /\
  (forall l, rat_lt w a b = Ok l -> (l = true <-> (ratQ a < ratQ b)%Q)) /\
  (rat_iszero a = true <-> (ratQ a == 0)%Q) /\
  (forall z, ratwf (rat_int z) /\ (ratQ (rat_int z) == inject_Z z)%Q).
Proof.
intros Wa Wb; assert (a0 : 0 < snd a) by apply Wa; assert (b0 : 0 < snd b) by apply Wb.
assert (EQ : forall c, ratwf c -> (rat_eq a c = true <-> (ratQ a == ratQ c)%Q)).
  intros c Wc; rewrite ratQ_eq by (apply Wc || auto); unfold rat_eq; rewrite andb_true_iff, !Z.eqb_eq; split.
    intros [-> ->]; auto.
  intros E; rewrite (ratwf_inj a c Wa Wc E); auto.
assert (IW : forall z, ratwf (rat_int z)) by (intros z; split; [reflexivity|apply Z.gcd_1_r]).
assert (IQ : forall z, (ratQ (rat_int z) == inject_Z z)%Q) by (intros; reflexivity).
split; [auto|split; [unfold rat_ne, rat_eq; rewrite negb_andb; auto|split; [|split; [|split]]]].
- intros z; split; [|unfold rat_neint, rat_eqint; rewrite negb_andb; auto].
  rewrite <- IQ; apply (EQ _ (IW z)).
- unfold rat_lt; intros l H; iws; injection H as <-; rewrite Z.ltb_lt.
  unfold ratQ, Qlt; simpl; rewrite !Z2Pos.id by auto; tauto.
- unfold rat_iszero, ratQ, Qeq; simpl; rewrite Z.eqb_eq; lia.
- intros z; auto.
Qed.

(** C04: what goes wrong: a zero denominator is accepted (n/0 with n <> 0 is stored as 0/0, whatever n) or is
    undefined (0/0), and dividing a value in place by itself gives 1/d. *)
Theorem C04_zero_denominator (w n : Z) : 1 < w -> fits w (Z.abs n) ->
  rat_make w n 0 = if n =? 0 then UB else Ok (0, 0).
Proof.
intros w1 H; assert (f0 : fits w 0).
  unfold fits; pose proof (Z.pow_pos_nonneg 2 (w - 1)); lia.
unfold rat_make, rat_reduce; rewrite (iw_Ok w (Z.abs n)) by auto; cbn [obind].
rewrite (iw_Ok w (Z.abs 0)) by auto; cbn [obind]; rewrite Z.gcd_0_r.
destruct (Z.eqb_spec n 0) as [->|ne]; [reflexivity|].
rewrite (proj2 (Z.eqb_neq _ _)) by lia; simpl Z.sgn; rewrite !Z.mul_0_l, (iw_Ok w 0 f0); reflexivity.
Qed.

Theorem C04_self_division (w : Z) (a r : Z * Z) : ratwf a -> fst a <> 0 ->
  rat_diveq_self w a = Ok r -> ratwf r /\ (ratQ r == 1 / inject_Z (snd a))%Q.
Proof.
intros Wa na; assert (a0 : 0 < snd a) by apply Wa; unfold rat_diveq_self; rewrite (proj2 (Z.eqb_neq _ _) na); intros H; iws.
assert (nz : snd a * (fst a * snd a) <> 0) by nia.
destruct (rat_make_inv w _ _ r nz H) as [W C]; split; auto; apply (ratQ_cross r _ _ _ nz W C).
assert (~ (inject_Z (snd a) == 0)%Q) by (unfold Qeq; simpl; lia).
rewrite !inject_Z_mult; field; auto.
Qed.

Theorem C04_nonvacuous :
  rat_make 32 6 (-4) = Ok (-3, 2) /\ ratwf (-3, 2) /\ rat_add 32 (-3, 2) (1, 3) = Ok (-7, 6) /\
  rat_lt 32 (-3, 2) (1, 3) = Ok true /\ rat_diveq_self 32 (-3, 2) = Ok (1, 2) /\
  rat_div 32 (-3, 2) (-3, 2) = Ok (1, 1) /\ rat_mul 32 (65536, 1) (65536, 1) = UB.
Proof. repeat split. Qed.
