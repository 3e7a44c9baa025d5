(** Proofs about the field types. *)
From Coq Require Import ZArith Bool Lia Znumtheory Zpow_facts.
From Verif Require Import Outcome M_Field.
Local Open Scope Z_scope.

Lemma p31 : 2 ^ 31 = 2147483648. Proof. reflexivity. Qed.
Lemma p32 : 2 ^ 32 = 4294967296. Proof. reflexivity. Qed.

Lemma int_okE z : int_ok z = true <-> - 2 ^ 31 <= z < 2 ^ 31.
Proof. unfold int_ok; rewrite andb_true_iff, Z.leb_le, Z.ltb_lt; tauto. Qed.
Lemma i32_Ok z : - 2 ^ 31 <= z < 2 ^ 31 -> i32 z = Ok z.
Proof. intros H; unfold i32; apply int_okE in H; now rewrite H. Qed.
Lemma i32_UB z : ~ (- 2 ^ 31 <= z < 2 ^ 31) -> i32 z = UB.
Proof. intros H; unfold i32; destruct (int_ok z) eqn:E; auto; apply int_okE in E; tauto. Qed.
Lemma u32_id z : 0 <= z < 2 ^ 32 -> u32 z = z.
Proof. intros; apply Z.mod_small; auto. Qed.
Lemma to_i32_id z : z < 2 ^ 31 -> to_i32 z = z.
Proof. intros H; unfold to_i32; apply Z.ltb_lt in H; now rewrite H. Qed.

Section P.
Variable P : Z.
Hypothesis P0 : 1 < P.
Hypothesis P31 : P < 2 ^ 31.

Lemma tou z : to_i32 (z mod P) = z mod P.
Proof. apply to_i32_id; pose proof (Z.mod_pos_bound z P); lia. Qed.

Lemma make_ok v : - P <= v < 2 ^ 31 -> modp_make P v = v mod P.
Proof.
intros H; unfold modp_make; rewrite u32_id by (rewrite p31, p32 in *; lia).
rewrite tou; replace (v + P) with (v + 1 * P) by lia; now rewrite Z.mod_add by lia.
Qed.

Lemma make_bad v : - 2 ^ 31 <= v < - P -> modp_make P v = (v + 2 ^ 32) mod P.
Proof.
intros H; unfold modp_make; rewrite tou; unfold u32.
replace ((v + P) mod 2 ^ 32) with (v + P + 2 ^ 32).
  replace (v + P + 2 ^ 32) with (v + 2 ^ 32 + 1 * P) by lia; now rewrite Z.mod_add by lia.
apply (Z.mod_unique _ _ (-1)); rewrite ?p31, ?p32 in *; lia.
Qed.

(** both sides agree only if P divides 2^32 *)
Lemma shift_ne v k : (v + k) mod P = v mod P -> (P | k).
Proof.
intros H; apply Zmod_divide; [lia|].
replace k with ((v + k) - v) by lia; rewrite Zminus_mod, H, Z.sub_diag; apply Z.mod_0_l; lia.
Qed.

Definition canon (x : Z) : Prop := 0 <= x < P.

Lemma mod_canon z : canon (z mod P).
Proof. apply Z.mod_pos_bound; lia. Qed.

Section Small.
Hypothesis PP : (P - 1) * (P - 1) < 2 ^ 31.
Variables a b : Z.
Hypothesis Ca : canon a.
Hypothesis Cb : canon b.

Lemma small_range x y : canon x -> canon y -> 0 <= x * y <= (P - 1) * (P - 1).
Proof. unfold canon; intros; split; nia. Qed.

Lemma modp_add_ok : a + b < 2 ^ 31 -> modp_add P a b = Ok ((a + b) mod P) /\ modp_addeq P a b = Ok ((a + b) mod P).
Proof.
unfold canon, modp_add, modp_addeq in *; intros H.
rewrite i32_Ok by (rewrite p31 in *; lia); cbn [obind].
rewrite make_ok by lia; rewrite u32_id by (rewrite p31, p32 in *; lia); now rewrite tou.
Qed.

Lemma modp_sub_ok : 2 * P < 2 ^ 31 ->
  modp_sub P a b = Ok ((a - b) mod P) /\ modp_subeq P a b = Ok ((a - b) mod P).
Proof.
unfold canon, modp_sub, modp_subeq in *; intros H.
rewrite i32_Ok by (rewrite p31 in *; lia); cbn [obind].
rewrite u32_id by (rewrite p31, p32 in *; lia); rewrite to_i32_id by (rewrite p31 in *; lia); rewrite tou.
rewrite make_ok by (rewrite p31 in *; lia).
replace (a - b + P) with (a - b + 1 * P) by lia; rewrite Z.mod_add by lia; auto.
Qed.

Lemma modp_neg_ok : modp_neg P a = (- a) mod P.
Proof.
unfold canon, modp_neg in *; rewrite u32_id by (rewrite p31, p32 in *; lia).
rewrite to_i32_id by (rewrite p31 in *; lia); rewrite make_ok by (rewrite p31 in *; lia).
replace (P - a) with (- a + 1 * P) by lia; now rewrite Z.mod_add by lia.
Qed.

Lemma modp_mul_ok : modp_mul P a b = Ok ((a * b) mod P) /\ modp_muleq P a b = Ok ((a * b) mod P).
Proof.
pose proof (small_range a b Ca Cb); unfold modp_mul, modp_muleq.
rewrite i32_Ok by (rewrite p31 in *; lia); cbn [obind].
rewrite make_ok by (rewrite p31 in *; lia); rewrite u32_id by (rewrite p31, p32 in *; lia); now rewrite tou.
Qed.
End Small.

Lemma inverse_exists v : prime P -> 1 <= v < P -> exists y, 1 <= y < P /\ (v * y) mod P = 1.
Proof.
intros pr H; pose proof (rel_prime_le_prime v P pr H) as R.
destruct (Zis_gcd_bezout _ _ _ R) as [x y E].
exists (x mod P); assert (M : (v * (x mod P)) mod P = 1).
  rewrite Z.mul_mod_idemp_r by lia; replace (v * x) with (1 + (- y) * P) by lia.
  rewrite Z.mod_add by lia; apply Z.mod_small; lia.
pose proof (Z.mod_pos_bound x P ltac:(lia)); split; auto.
assert (x mod P <> 0) by (intros Z0; rewrite Z0, Z.mul_0_r, Z.mod_0_l in M; lia); lia.
Qed.

Lemma ff_loop_ok v y : prime P -> (P - 1) * (P - 1) < 2 ^ 31 -> 1 <= v < P -> 1 <= y < P -> (v * y) mod P = 1 ->
  forall fuel b, 1 <= b <= y -> y - b < Z.of_nat fuel ->
  exists b', ff_loop P fuel v b (b * v) = Ok b' /\ 1 <= b' < P /\ (v * b') mod P = 1.
Proof.
intros pr PP Hv Hy E; induction fuel as [|f IH]; intros b Hb Hf; [lia|].
assert (0 <= b * v <= (P - 1) * (P - 1)) by (split; nia).
simpl; rewrite u32_id by (rewrite p31, p32 in *; lia).
destruct (Z.eqb_spec ((b * v) mod P) 1) as [e|ne].
  exists b; split; [auto|split; [lia|]]; now rewrite Z.mul_comm.
assert (b <> y) by (intros e; subst; rewrite Z.mul_comm in ne; auto).
rewrite i32_Ok by (rewrite p31 in *; lia); cbn [obind].
assert (0 <= (b + 1) * v <= (P - 1) * (P - 1)) by (split; nia).
rewrite i32_Ok by (rewrite p31 in *; lia); cbn [obind].
replace (b * v + v) with ((b + 1) * v) by lia; apply IH; lia.
Qed.

Lemma modp_inv_ok a : prime P -> (P - 1) * (P - 1) < 2 ^ 31 -> canon a -> a <> 0 ->
  exists y, modp_inv P a = Ok y /\ canon y /\ (a * y) mod P = 1.
Proof.
intros pr PP Ca na; unfold canon in Ca; assert (Ha : 1 <= a < P) by lia.
destruct (inverse_exists a pr Ha) as (y & Hy & E).
unfold modp_inv, ff_inv; rewrite (proj2 (Z.eqb_neq a 0)) by auto.
destruct (ff_loop_ok a y pr PP Ha Hy E (S (Z.to_nat P)) 1) as (b & Eb & Hb & Mb); [lia|lia|].
rewrite Z.mul_1_l in Eb; rewrite Eb; cbn [obind]; exists b; unfold canon.
rewrite make_ok by lia; rewrite (Z.mod_small b P) by lia; repeat split; auto; lia.
Qed.

Lemma modp_div_ok a b : prime P -> (P - 1) * (P - 1) < 2 ^ 31 -> canon a -> canon b -> b <> 0 ->
  exists q, modp_div P a b = Ok q /\ modp_diveq P a b = Ok q /\ canon q /\ (q * b) mod P = a.
Proof.
intros pr PP Ca Cb nb; destruct (modp_inv_ok b pr PP Cb nb) as (y & Ey & Cy & My).
unfold modp_div, modp_diveq; rewrite (proj2 (Z.eqb_neq b 0)) by auto.
rewrite Ey; cbn [obind]; destruct (modp_mul_ok PP a y Ca Cy) as [E1 E2].
unfold modp_mul in E1; unfold modp_muleq in E2; rewrite E1, E2.
exists ((a * y) mod P); split; [auto|split; [auto|split; [apply mod_canon|]]].
rewrite Z.mul_mod_idemp_l by lia; replace (a * y * b) with (a * (b * y)) by lia.
rewrite <- Z.mul_mod_idemp_r, My, Z.mul_1_r by lia; apply Z.mod_small; apply Ca.
Qed.

Lemma odd_prime_pow n : prime P -> P <> 2 -> 0 <= n -> ~ (P | 2 ^ n).
Proof. intros pr ne ln D; apply ne; exact (prime_power_prime P 2 n ln pr prime_2 D). Qed.
End P.

Lemma isprime_loopE fuel p i : 2 <= p -> 2 <= i -> p / 2 + 1 - i < Z.of_nat fuel -> (0 < fuel)%nat ->
  exists r, isprime_loop fuel p i = Ok r /\ (r = true <-> forall k, i <= k <= p / 2 -> ~ (k | p)).
Proof.
revert i; induction fuel as [|f IH]; intros i Hp Hi Hf H0; [lia|]; simpl.
destruct (Z.ltb_spec i (p / 2 + 1)) as [lt|ge].
  destruct (Z.eqb_spec (p mod i) 0) as [e|ne].
    exists false; split; auto; split; [discriminate|].
    intros H; exfalso; apply (H i); [lia|]; apply Zmod_divide; lia.
  destruct (IH (i + 1)) as (r & E & H); [lia|lia|lia|lia|].
  exists r; split; auto; rewrite H; split; intros K k Hk.
    destruct (Z.eq_dec k i) as [->|nk]; [|apply K; lia].
    intros D; apply ne; apply Zdivide_mod; auto.
  apply K; lia.
exists true; split; auto; split; auto; intros _ k Hk; lia.
Qed.

Lemma isprimeE p : exists r, isprime p = Ok r /\ (r = true <-> prime p).
Proof.
unfold isprime; destruct (Z.ltb_spec p 2) as [lt|ge].
  exists false; split; auto; split; [discriminate|].
  intros pr; pose proof (prime_ge_2 p pr); lia.
destruct (isprime_loopE (S (Z.to_nat p)) p 2) as (r & E & H); [lia|lia| |lia|].
  assert (p / 2 <= p) by (apply Z.div_le_upper_bound; lia); lia.
exists r; split; auto; rewrite H; split.
  intros K; destruct (prime_dec p) as [pr|npr]; auto; exfalso.
  destruct (not_prime_divide p ltac:(lia) npr) as (n & Hn & [q Eq]).
  apply (K n); [|exists q; auto]; split; [lia|].
  apply Z.div_le_lower_bound; [lia|]; assert (2 <= q) by nia; nia.
intros pr k Hk D; assert (p / 2 < p) by (apply Z.div_lt; lia).
destruct (prime_divisors p pr k D) as [?|[?|[?|?]]]; lia.
Qed.

(** ** Mod 2 *)
Lemma land1 a : Z.land a 1 = a mod 2.
Proof. change 1 with (Z.ones 1); now rewrite Z.land_ones by lia. Qed.
Lemma lxor_mod2 a b : (Z.lxor a b) mod 2 = (a + b) mod 2.
Proof.
rewrite <- !Z.bit0_mod, Z.lxor_spec, Z.add_bit0; auto.
Qed.
Lemma land_mod2 a b : (Z.land a b) mod 2 = (a * b) mod 2.
Proof.
rewrite <- Z.bit0_mod, Z.land_spec, !Z.bit0_odd.
rewrite Zmod_odd, Z.odd_mul; destruct (Z.odd a), (Z.odd b); auto.
Qed.

(** ** Rational *)
From Coq Require Import QArith.
Local Open Scope Z_scope.

(** a stored rational in canonical form, and the rational number it stands for *)
Definition ratwf (a : Z * Z) : Prop := 0 < snd a /\ Z.gcd (fst a) (snd a) = 1.
Definition ratQ (a : Z * Z) : Q := fst a # Z.to_pos (snd a).

Lemma ratQ_eq a b : 0 < snd a -> 0 < snd b -> (ratQ a == ratQ b)%Q <-> fst a * snd b = fst b * snd a.
Proof. intros Ha Hb; unfold ratQ, Qeq; simpl; rewrite !Z2Pos.id by auto; tauto. Qed.

Lemma ratwf_inj a b : ratwf a -> ratwf b -> fst a * snd b = fst b * snd a -> a = b.
Proof.
destruct a as [n d], b as [m e]; unfold ratwf; simpl; intros [Hd G1] [He G2] E.
assert (D1 : (d | e)).
  apply (Z.gauss d n e); [exists m; lia|rewrite Z.gcd_comm; auto].
assert (D2 : (e | d)).
  apply (Z.gauss e m d); [exists n; lia|rewrite Z.gcd_comm; auto].
assert (d = e) by (apply Z.divide_antisym_nonneg; auto; lia); subst.
f_equal; nia.
Qed.

Section R.
Variable w : Z.

Lemma iw_Ok z : fits w z -> iw w z = Ok z.
Proof. intros [H1 H2]; unfold iw; now rewrite (proj2 (Z.leb_le _ _) H1), (proj2 (Z.ltb_lt _ _) H2). Qed.
Lemma iw_inv z : (fits w z /\ iw w z = Ok z) \/ (~ fits w z /\ iw w z = UB).
Proof.
unfold fits, iw; destruct (Z.leb_spec (- 2 ^ (w - 1)) z), (Z.ltb_spec z (2 ^ (w - 1))); simpl;
 [left; auto|right..]; split; auto; lia.
Qed.

Lemma reduce_num n d : d <> 0 ->
  let g := Z.gcd n d in let r := (Z.sgn d * Z.quot n g, Z.sgn d * Z.quot d g) in
  ratwf r /\ fst r * d = n * snd r /\ Z.abs (fst r) <= Z.abs n /\ snd r <= Z.abs d.
Proof.
intros nd g r; assert (g0 : 0 < g).
  pose proof (Z.gcd_nonneg n d); assert (g <> 0) by (intros e; apply Z.gcd_eq_0_r in e; auto); unfold g in *; lia.
destruct (Z.gcd_divide_l n d) as [n1 En]; destruct (Z.gcd_divide_r n d) as [d1 Ed]; fold g in En, Ed.
assert (G1 : Z.gcd n1 d1 = 1).
  pose proof (Z.gcd_div_gcd n d g ltac:(lia) eq_refl) as H.
  rewrite En, Ed in H; rewrite !Z.div_mul in H by lia; auto.
assert (Qn : Z.quot n g = n1) by (rewrite En, Z.quot_mul; lia).
assert (Qd : Z.quot d g = d1) by (rewrite Ed, Z.quot_mul; lia).
unfold r; rewrite Qn, Qd; simpl.
assert (d1 <> 0) by (intros e; subst d1; lia).
assert (Sd : Z.sgn d = Z.sgn d1).
  rewrite Ed, Z.sgn_mul; rewrite (Z.sgn_pos g) by lia; lia.
rewrite Sd; unfold ratwf; simpl.
replace (Z.sgn d1 * d1) with (Z.abs d1) by (rewrite Z.mul_comm; symmetry; rewrite Z.mul_comm; apply Z.abs_sgn || lia).
repeat split.
- lia.
- destruct (Z.sgn_spec d1) as [[_ e]|[[e _]|[_ e]]]; [|congruence|]; rewrite e, Z.gcd_abs_r.
    now rewrite Z.mul_1_l.
  replace (-1 * n1) with (- n1) by lia; now rewrite Z.gcd_opp_l.
- rewrite En at 1; rewrite Ed; nia.
- rewrite En; rewrite !Z.abs_mul; assert (Z.abs (Z.sgn d1) = 1) by lia; nia.
- rewrite Ed at 1; rewrite Z.abs_mul; nia.
Qed.

Lemma rat_make_ok n d : d <> 0 -> fits w (Z.abs n) -> fits w (Z.abs d) ->
  exists r, rat_make w n d = Ok r /\ ratwf r /\ fst r * d = n * snd r.
Proof.
intros nd fn fd; unfold rat_make, rat_reduce; rewrite !iw_Ok by auto; cbn [obind].
destruct (reduce_num n d nd) as (W & E & B1 & B2).
assert (Z.gcd n d <> 0) by (intros e; apply Z.gcd_eq_0_r in e; auto).
rewrite (proj2 (Z.eqb_neq _ _)) by auto.
cbn [fst snd] in B1, B2, W.
rewrite !iw_Ok; [eexists; split; [reflexivity|split; [exact W|exact E]]|..]; unfold fits in *; unfold ratwf in W; cbn [fst snd] in W; lia.
Qed.

Lemma rat_make_inv n d r : d <> 0 -> rat_make w n d = Ok r -> ratwf r /\ fst r * d = n * snd r.
Proof.
intros nd H; destruct (iw_inv (Z.abs n)) as [[f1 e1]|[f1 e1]].
  destruct (iw_inv (Z.abs d)) as [[f2 e2]|[f2 e2]].
    destruct (rat_make_ok n d nd f1 f2) as (r' & E & W); rewrite E in H; injection H as <-; auto.
  unfold rat_make, rat_reduce in H; rewrite e1, e2 in H; discriminate.
unfold rat_make, rat_reduce in H; rewrite e1 in H; discriminate.
Qed.
End R.
