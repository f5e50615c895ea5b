From Coq Require Import String Lia.
From Verif Require Import Model.Py Model.Arith Model.Utils Model.Base Model.Hash Model.DictVec.
From Verif Require Import Spec.Matrix Spec.Text Spec.Features.
From Verif Require Import Proofs.Lib.
Local Open Scope Z_scope.

(** * Words of 32 bits *)
Lemma mask_mod : forall x, Z.land x mask32 = x mod W.
Proof. intro x. change mask32 with (Z.ones 32). rewrite Z.land_ones by lia. reflexivity. Qed.
Lemma land_low_high : forall q n b, 0 <= n -> 0 <= b < 2 ^ n -> Z.land (q * 2 ^ n) b = 0.
Proof.
  intros q n b Hn Hb. apply Z.bits_inj'. intros i Hi. rewrite Z.land_spec, Z.bits_0. destruct (Z.lt_ge_cases i n).
  - rewrite Z.mul_pow2_bits_low by lia. auto.
  - assert (E : Z.testbit b i = false). { destruct (Z.eq_dec b 0) as [->|]; [apply Z.bits_0|]. apply Z.bits_above_log2; [lia|]. apply Z.lt_le_trans with n; auto. apply Z.log2_lt_pow2; lia. }
    rewrite E, andb_false_r. auto.
Qed.
Lemma lor_add : forall q n b, 0 <= n -> 0 <= b < 2 ^ n -> Z.lor (q * 2 ^ n) b = q * 2 ^ n + b.
Proof. intros q n b Hn Hb. pose proof (land_low_high q n b Hn Hb) as E. rewrite <- Z.lxor_lor by auto. symmetry. apply Z.add_nocarry_lxor. auto. Qed.
Lemma lxor_add : forall q n b, 0 <= n -> 0 <= b < 2 ^ n -> Z.lxor (q * 2 ^ n) b = q * 2 ^ n + b.
Proof. intros q n b Hn Hb. symmetry. apply Z.add_nocarry_lxor. apply land_low_high; auto. Qed.
Lemma W_pos : 0 < W. Proof. reflexivity. Qed.
Lemma lxor_range : forall n a b, 0 <= n -> 0 <= a < 2 ^ n -> 0 <= b < 2 ^ n -> 0 <= Z.lxor a b < 2 ^ n.
Proof.
  intros n a b Hn Ha Hb. assert (P : 0 <= Z.lxor a b) by (apply Z.lxor_nonneg; split; lia). split; auto.
  destruct (Z.eq_dec (Z.lxor a b) 0) as [->|]; [lia|]. apply Z.log2_lt_pow2; [lia|].
  pose proof (Z.log2_lxor a b ltac:(lia) ltac:(lia)) as L.
  assert (Q : forall z, 0 <= z < 2 ^ n -> z = 0 \/ Z.log2 z < n) by (intros z Hz; destruct (Z.eq_dec z 0); auto; right; apply Z.log2_lt_pow2; lia).
  destruct (Q a Ha) as [->|A1]; destruct (Q b Hb) as [->|B1].
  - exfalso. apply n0. reflexivity.
  - rewrite Z.lxor_0_l. auto.
  - rewrite Z.lxor_0_r. auto.
  - lia.
Qed.
Lemma rotl_ok : forall x r, 0 < r < 32 -> 0 <= x < W -> rotl x r = rol x r.
Proof.
  intros x r Hr Hx. unfold rotl, rol. rewrite mask_mod. rewrite Z.shiftl_mul_pow2, Z.shiftr_div_pow2 by lia.
  assert (B : 0 <= x / 2 ^ (32 - r) < 2 ^ r).
  { split; [apply Z.div_pos; lia|]. apply Z.div_lt_upper_bound; [lia|]. rewrite <- Z.pow_add_r by lia. replace (32 - r + r) with 32 by lia. apply Hx. }
  rewrite lor_add by lia.
  assert (E : (x * 2 ^ r) mod W = (x mod 2 ^ (32 - r)) * 2 ^ r).
  { unfold W. replace (2 ^ 32) with (2 ^ (32 - r) * 2 ^ r) by (rewrite <- Z.pow_add_r by lia; f_equal; lia). rewrite Z.mul_mod_distr_r by lia. auto. }
  assert (M : 0 <= x mod 2 ^ (32 - r) < 2 ^ (32 - r)) by (apply Z.mod_pos_bound; lia).
  rewrite E. rewrite Z.add_mod by (pose proof W_pos; lia). rewrite E. rewrite (Z.mod_small (x / 2 ^ (32 - r)) W) by (pose proof (Z.pow_lt_mono_r 2 r 32); unfold W; lia).
  apply Z.mod_small. unfold W. replace (2 ^ 32) with (2 ^ (32 - r) * 2 ^ r) by (rewrite <- Z.pow_add_r by lia; f_equal; lia). nia.
Qed.
Lemma rol_range : forall x r, 0 < r < 32 -> 0 <= x < W -> 0 <= rol x r < W.
Proof. intros x r Hr Hx. rewrite <- rotl_ok by auto. unfold rotl. rewrite mask_mod. apply Z.mod_pos_bound. reflexivity. Qed.
Lemma mod_range : forall x, 0 <= x mod W < W. Proof. intro. apply Z.mod_pos_bound. reflexivity. Qed.
Lemma scramble_ok : forall k, mix_k k = scramble k.
Proof.
  intro k. unfold mix_k, scramble. rewrite !mask_mod. change h_c1 with 3432918353. change h_c2 with 461845907.
  rewrite (Z.mul_comm 3432918353 k). rewrite rotl_ok by (try lia; apply mod_range). rewrite Z.mul_comm. reflexivity.
Qed.
Lemma scramble_range : forall k, 0 <= scramble k < W. Proof. intro. apply mod_range. Qed.
Definition byte (b : Z) : Prop := 0 <= b < 256.
Lemma block_ok : forall h b0 b1 b2 b3, 0 <= h < W -> byte b0 -> byte b1 -> byte b2 -> byte b3 ->
  hash_block h b0 b1 b2 b3 = absorb h (little_endian [b0; b1; b2; b3]).
Proof.
  unfold byte. intros h b0 b1 b2 b3 Hh H0 H1 H2 H3. unfold hash_block, absorb. rewrite scramble_ok.
  assert (E : Z.lor (Z.lor (Z.lor (Z.shiftl b3 24) (Z.shiftl b2 16)) (Z.shiftl b1 8)) b0 = little_endian [b0; b1; b2; b3]).
  { rewrite !Z.shiftl_mul_pow2 by lia. rewrite (lor_add b3 24) by lia.
    replace (b3 * 2 ^ 24 + b2 * 2 ^ 16) with ((b3 * 256 + b2) * 2 ^ 16) by lia. rewrite lor_add by lia.
    replace ((b3 * 256 + b2) * 2 ^ 16 + b1 * 2 ^ 8) with (((b3 * 256 + b2) * 256 + b1) * 2 ^ 8) by lia. rewrite lor_add by lia. cbn [little_endian]. lia. }
  rewrite E. rewrite mask_mod. change 0xE6546B64 with 3864292196. rewrite rotl_ok; auto; [lia|]. apply (lxor_range 32); [lia|auto|apply scramble_range].
Qed.
Lemma absorb_range : forall h k, 0 <= absorb h k < W. Proof. intros. apply mod_range. Qed.
Lemma tail_ok : forall t, (length t <= 3)%nat -> Forall byte t ->
  hash_body 0 t = match t with [] => 0 | _ => Z.lxor 0 (scramble (little_endian t)) end.
Proof.
  unfold byte. intros t L F. destruct t as [|b0 [|b1 [|b2 [|b3 t]]]]; cbn [length] in L; try lia; auto; cbn [hash_body]; rewrite scramble_ok; f_equal; f_equal; repeat match goal with H : Forall _ (_ :: _) |- _ => inversion H; clear H; subst end; rewrite !Z.lxor_0_l, ?Z.shiftl_mul_pow2 by lia; cbn [little_endian].
  - lia.
  - rewrite lxor_add by lia. lia.
  - rewrite lxor_add by lia. replace (b2 * 2 ^ 16 + b1 * 2 ^ 8) with ((b2 * 256 + b1) * 2 ^ 8) by lia. rewrite lxor_add by lia. lia.
Qed.
Lemma tail_xor : forall h t, (length t <= 3)%nat -> hash_body h t = match t with [] => h | _ => Z.lxor h (hash_body 0 t) end.
Proof.
  intros h t L. destruct t as [|b0 [|b1 [|b2 [|b3 t]]]]; cbn [length] in L; try lia; auto; cbn [hash_body]; rewrite !Z.lxor_0_l; auto.
Qed.
Lemma body_ok : forall n key h, length key = n -> 0 <= h < W -> Forall byte key ->
  hash_body h key =
    let n := (length key / 4)%nat in let h := absorb_blocks n h key in
    match skipn (4 * n) key with [] => h | t => Z.lxor h (scramble (little_endian t)) end.
Proof.
  intro n. induction n as [n IH] using lt_wf_ind. intros key h L Hh F. cbv zeta.
  destruct (Nat.lt_ge_cases (length key) 4) as [Sh|Lo].
  - rewrite Nat.div_small by auto. cbn [Nat.mul absorb_blocks skipn]. rewrite tail_xor by lia. rewrite tail_ok by (auto; lia). destruct key; auto.
  - destruct key as [|b0 [|b1 [|b2 [|b3 t]]]]; cbn [length] in Lo; try lia. cbn [hash_body].
    inversion F as [|? ? B0 F1]; subst. inversion F1 as [|? ? B1 F2]; subst. inversion F2 as [|? ? B2 F3]; subst. inversion F3 as [|? ? B3 F4]; subst.
    rewrite block_ok by auto. rewrite (IH (length t)); auto; [|cbn [length]; lia|apply absorb_range].
    cbn [length]. replace (S (S (S (S (length t)))) / 4)%nat with (S (length t / 4))%nat.
    2:{ replace (S (S (S (S (length t)))))%nat with (length t + 1 * 4)%nat by lia. rewrite Nat.div_add by lia. lia. }
    cbn [absorb_blocks firstn]. replace (4 * S (length t / 4))%nat with (S (S (S (S (4 * (length t / 4))))))%nat by lia. cbn [skipn]. reflexivity.
Qed.
Lemma blocks_range : forall n h key, 0 <= h < W -> 0 <= absorb_blocks n h key < W.
Proof. intros n. induction n as [|n IH]; intros h key Hh; cbn [absorb_blocks]; auto. apply IH, absorb_range. Qed.
Lemma fmix_ok : forall h, fmix h = avalanche h.
Proof. intro h. unfold fmix, avalanche, xorshift. rewrite !mask_mod, !Z.shiftr_div_pow2 by lia. reflexivity. Qed.
Lemma xorshift_range : forall h r, 0 <= r -> 0 <= h < W -> 0 <= xorshift h r < W.
Proof.
  intros h r Hr Hh. apply (lxor_range 32); [lia|auto|]. split; [apply Z.div_pos; lia|]. apply Z.le_lt_trans with h; [|apply Hh]. rewrite <- (Z.div_1_r h) at 2. apply Z.div_le_compat_l; lia.
Qed.
Lemma avalanche_range : forall h, 0 <= avalanche h < W.
Proof. intro h. apply xorshift_range; [lia|apply mod_range]. Qed.
Lemma signed_ok : forall u, 0 <= u < W -> (if Z.land u 0x80000000 =? 0 then u else - (Z.lxor u mask32 + 1)) = signed u.
Proof.
  intros u Hu. unfold signed, W in *.
  assert (B : Z.land u 0x80000000 = if u <? 2 ^ 31 then 0 else 2 ^ 31).
  { destruct (Z.ltb_spec u (2 ^ 31)).
    - rewrite Z.land_comm. change 0x80000000 with (1 * 2 ^ 31). apply land_low_high; lia.
    - replace u with (1 * 2 ^ 31 + (u - 2 ^ 31)) by lia. rewrite <- (lor_add 1 31) by lia. rewrite Z.land_lor_distr_l. assert (E0 : Z.land (u - 2 ^ 31) 0x80000000 = 0) by (rewrite Z.land_comm; change 0x80000000 with (1 * 2 ^ 31); apply land_low_high; lia). rewrite E0. reflexivity. }
  rewrite B. destruct (u <? 2 ^ 31); [reflexivity|]. change (2 ^ 31 =? 0) with false. cbv iota.
  assert (X : Z.lxor u mask32 = 2 ^ 32 - 1 - u).
  { change mask32 with (Z.ones 32). replace (2 ^ 32 - 1 - u) with (Z.lnot u + 1 * 2 ^ 32) by (unfold Z.lnot; lia).
    rewrite <- (Z.mod_small (Z.lxor u (Z.ones 32)) (2 ^ 32)).
    2:{ apply lxor_range; [lia|auto|]. change (0 <= 2 ^ 32 - 1 < 2 ^ 32). lia. }
    rewrite <- (Z.mod_small (Z.lnot u + 1 * 2 ^ 32) (2 ^ 32)) by (unfold Z.lnot; lia). rewrite Z.mod_add by lia.
    rewrite <- !Z.land_ones by lia. apply Z.bits_inj'. intros i Hi. rewrite !Z.land_spec, Z.lxor_spec, Z.lnot_spec by lia. destruct (Z.lt_ge_cases i 32).
    - rewrite Z.ones_spec_low by lia. rewrite xorb_true_r. auto.
    - rewrite Z.ones_spec_high by lia. rewrite !andb_false_r. auto. }
  rewrite X. lia.
Qed.
Lemma hash_bytes_ok : forall key seed, 0 <= seed < W -> Forall byte key -> Z.of_nat (length key) < W -> hash_bytes key seed = signed (murmur3 key seed).
Proof.
  intros key seed Hs F L. unfold hash_bytes. rewrite fmix_ok. rewrite signed_ok by apply avalanche_range. f_equal. unfold murmur3. f_equal.
  rewrite (Z.mod_small (Z.of_nat (length key)) W) by lia. f_equal. rewrite (body_ok (length key)) by auto. cbv zeta. destruct (skipn _ key); reflexivity.
Qed.
Lemma signed_range : forall u, 0 <= u < W -> - 2 ^ 31 <= signed u < 2 ^ 31.
Proof. intros u H. unfold signed, W in *. destruct (Z.ltb_spec u (2 ^ 31)); lia. Qed.
Lemma hash_range : forall key seed, - 2 ^ 31 <= hash_bytes key seed < 2 ^ 31.
Proof. intros. unfold hash_bytes. rewrite fmix_ok. rewrite signed_ok by apply avalanche_range. apply signed_range, avalanche_range. Qed.

(** * UTF-8 *)
Lemma utf8_of_byte : forall c bs, utf8_of c bs -> Forall byte bs.
Proof.
  unfold byte. intros c bs [[H ->]|[[H (a & b & -> & H1)]|[[H [_ (a & b & d & -> & H1)]]|[H (a & b & d & e & -> & H1)]]]]; repeat constructor; lia.
Qed.
Lemma low6 : forall c, Z.land c 63 = c mod 64. Proof. intro. change 63 with (Z.ones 6). rewrite Z.land_ones by lia. reflexivity. Qed.
Lemma utf8_of_fun : forall c bs bs', utf8_of c bs -> utf8_of c bs' -> bs' = bs.
Proof.
  intros c bs bs' [[H ->]|[[H (a & b & -> & H1)]|[[H [N (a & b & d & -> & H1)]]|[H (a & b & d & e & -> & H1)]]]]
    [[H' ->]|[[H' (a' & b' & -> & H1')]|[[H' [N' (a' & b' & d' & -> & H1')]]|[H' (a' & b' & d' & e' & -> & H1')]]]]; try lia; auto; repeat f_equal; lia.
Qed.
Lemma utf8_char_ok : forall c bs, 0 <= c < 1114112 -> (utf8_char c = Ok bs <-> utf8_of c bs).
Proof.
  assert (S : forall c bs, 0 <= c < 1114112 -> utf8_char c = Ok bs -> utf8_of c bs).
  { intros c bs Hc. unfold utf8_char. rewrite !low6, !Z.shiftr_div_pow2 by lia.
    pose proof (Z.div_mod c 64 ltac:(lia)). pose proof (Z.mod_pos_bound c 64 ltac:(lia)).
    assert (D1 : c / 2 ^ 12 = c / 64 / 64) by (rewrite Z.div_div by lia; reflexivity). assert (D2 : c / 2 ^ 18 = c / 64 / 64 / 64) by (rewrite !Z.div_div by lia; reflexivity). rewrite D1, D2. change (2 ^ 6) with 64.
    pose proof (Z.div_mod (c / 64) 64 ltac:(lia)). pose proof (Z.mod_pos_bound (c / 64) 64 ltac:(lia)).
    pose proof (Z.div_mod (c / 64 / 64) 64 ltac:(lia)). pose proof (Z.mod_pos_bound (c / 64 / 64) 64 ltac:(lia)).
    destruct (Z.ltb_spec c 128); [intro E; injection E as <-; left; split; [lia|auto]|].
    destruct (Z.ltb_spec c 2048); [intro E; injection E as <-; right; left; split; [lia|]; do 2 eexists; split; [reflexivity|]; lia|].
    destruct (Z.leb_spec 55296 c); cbn [andb].
    - destruct (Z.leb_spec c 57343); [discriminate|]. destruct (Z.ltb_spec c 65536); intro E; injection E as <-.
      + right. right. left. split; [lia|]. split; [lia|]. do 3 eexists. split; [reflexivity|]. lia.
      + right. right. right. split; [lia|]. do 4 eexists. split; [reflexivity|]. lia.
    - destruct (Z.ltb_spec c 65536); [|lia]. intro E; injection E as <-. right. right. left. split; [lia|]. split; [lia|]. do 3 eexists. split; [reflexivity|]. lia. }
  intros c bs Hc. split; [apply S; auto|]. intro H. destruct (utf8_char c) as [bs'|e] eqn:E.
  - f_equal. eapply utf8_of_fun; eauto.
  - exfalso. unfold utf8_char in E. destruct (c <? 128); [discriminate|]. destruct (c <? 2048) eqn:E2; [discriminate|]. destruct ((55296 <=? c) && (c <=? 57343)) eqn:E3; [|destruct (c <? 65536); discriminate].
    apply andb_prop in E3. destruct H as [[H _]|[[H _]|[[H [N _]]|[H _]]]]; lia.
Qed.
Lemma utf8_ok : forall s bs, Forall (fun c => 0 <= c < 1114112) s -> (utf8 s = Ok bs <-> utf8_bytes s bs).
Proof.
  intros s bs F. unfold utf8, utf8_bytes. split.
  - intro H. inv_bind H. injection H as <-. exists a. split; auto. apply mapM_Forall2 in E. clear -E F. induction E; constructor; inversion F; subst; auto. apply utf8_char_ok; auto.
  - intros (bss & H & ->). assert (E : mapM utf8_char s = Ok bss). { apply mapM_Forall2. clear -H F. induction H; constructor; inversion F; subst; auto. apply utf8_char_ok; auto. } rewrite E. auto.
Qed.
Lemma utf8_bytes_byte : forall s bs, utf8_bytes s bs -> Forall byte bs.
Proof. intros s bs (bss & H & ->). induction H; simpl; auto. apply Forall_app. split; auto. eapply utf8_of_byte; eauto. Qed.

(** * Rows built by assignment *)
Lemma last_of_app : forall {K V} (dec : forall a b : K, {a = b} + {a <> b}) k (l1 l2 : list (K * V)),
  last_of dec k (l1 ++ l2) = match last_of dec k l2 with Some v => Some v | None => last_of dec k l1 end.
Proof.
  intros K V dec k l1 l2. induction l1 as [|[k' v] l1 IH]; cbn [app last_of]; [destruct (last_of dec k l2); auto|]. rewrite IH. destruct (last_of dec k l2); auto.
Qed.
Lemma last_of_in : forall {K V} (dec : forall a b : K, {a = b} + {a <> b}) k (l : list (K * V)) v, last_of dec k l = Some v -> In (k, v) l.
Proof.
  intros K V dec k l v. induction l as [|[k' w] l IH]; cbn [last_of]; [discriminate|]. destruct (last_of dec k l); [intro E; right; auto|]. destruct (dec k' k); [|discriminate]. intro E. injection E as ->. subst. left. auto.
Qed.
Lemma dict_of_last : forall {V} (l : list (Z * V)) k, dlookup Z.eqb k (dict_of Z.eqb l) = last_of Z.eq_dec k l.
Proof.
  intros V l k. unfold dict_of. rewrite <- fold_left_rev_right. rewrite <- (rev_involutive l) at 2. induction (rev l) as [|[k' v] r IH]; auto.
  cbn [fold_right rev fst snd]. rewrite (dlookup_dset Z.eqb Zeqb_ok), last_of_app, IH. cbn [last_of]. destruct (Z.eq_dec k' k) as [->|N]; [rewrite Z.eqb_refl; auto|]. 
  destruct (Z.eqb_spec k k'); [congruence|auto].
Qed.

(** * DictVectorizer *)
Section Dict.
  Context {A : arith}.
  (** The cells it assigns, in order. *)
  Fixpoint cells (vocab : dict pystr Z) (l : list (pystr * A)) : list (Z * A) :=
    match l with
    | [] => []
    | (k, v) :: t => match dlookup str_eqb k vocab with Some j => (j, v) :: cells vocab t | None => cells vocab t end
    end.
  Lemma dv_row_ok : forall d x, dv_dtype d = DFloat -> dv_row (A:=A) d x = Ok (dict_of Z.eqb (cells (dv_vocab d) (named (dv_sep d) x))).
  Proof.
    intros [voc sp dt sep] x HD. unfold dv_row, dict_of. cbn [dv_vocab dv_sparse dv_dtype dv_sep] in *. subst dt. generalize (@nil (Z * A)). induction x as [|[k v] x IH]; intro row; auto.
    cbn [foldM named map snd fst]. change (map _ x) with (named sep x). destruct v as [s|v]; cbn [cells]; destruct (dlookup str_eqb _ voc); cbn [conv bind fold_left fst snd]; apply IH.
  Qed.
  Lemma cells_last : forall v l t j, vocabulary v -> In (t, j) v -> last_of Z.eq_dec j (cells v l) = last_of str_dec t l.
  Proof.
    intros v l t j V I. induction l as [|[k x] l IH]; auto. cbn [cells last_of]. destruct V as (ND1 & ND2 & V).
    destruct (dlookup str_eqb k v) as [j'|] eqn:E; cbn [last_of]; rewrite IH.
    - destruct (last_of str_dec t l); auto. apply (dlookup_in str_eqb str_eqb_ok) in E. destruct (Z.eq_dec j' j) as [->|N], (str_dec k t) as [->|M]; auto; exfalso.
      + apply M. clear -ND2 E I. induction v as [|[a b] v IH]; [destruct I|]. cbn [map snd] in ND2. inversion ND2 as [|? ? N1 N2]; subst. destruct E as [E|E], I as [I|I]; try congruence; auto.
        * injection E as -> ->. exfalso. apply N1. apply in_map_iff. exists (t, j). auto.
        * injection I as -> ->. exfalso. apply N1. apply in_map_iff. exists (k, j). auto.
      + apply N. apply (dlookup_nodup str_eqb str_eqb_ok) in E; auto. apply (dlookup_nodup str_eqb str_eqb_ok) in I; auto. congruence.
    - destruct (last_of str_dec t l); auto. destruct (str_dec k t) as [->|]; auto. exfalso. apply (dlookup_none str_eqb str_eqb_ok) in E. apply E. apply in_map_iff. exists (t, j). auto.
  Qed.
  Lemma cells_col : forall v l j x, In (j, x) (cells v l) -> exists t, In (t, j) v.
  Proof.
    intros v l j x. induction l as [|[k y] l IH]; cbn [cells]; [intros []|]. destruct (dlookup str_eqb k v) as [j'|] eqn:E; auto. intros [H|H]; auto. injection H as <- <-. exists k. apply (dlookup_in str_eqb str_eqb_ok). auto.
  Qed.
  Lemma cells_term_row : forall v l, is0 (zero : A) -> vocabulary v ->
    term_row v (fun t => match last_of str_dec t l with Some x => x | None => zero end) (dict_of Z.eqb (cells v l)).
  Proof.
    intros v l Z0 V. assert (ND : NoDup (map fst (dict_of Z.eqb (cells v l)))) by apply (NoDup_dict_of Z.eqb Zeqb_ok). split; auto. split.
    - intros j x I. apply (dlookup_nodup Z.eqb Zeqb_ok) in I; auto. rewrite dict_of_last in I. destruct (cells_col v l j x (last_of_in _ _ _ _ I)) as [t It]. exists t. split; auto. rewrite (cells_last v l t j V It) in I. rewrite I. auto.
    - intros t j It. pose proof (dict_of_last (cells v l) j) as E. rewrite (cells_last v l t j V It) in E. destruct (last_of str_dec t l) as [x|].
      + left. apply (dlookup_in Z.eqb Zeqb_ok). auto.
      + right. split; auto. apply (dlookup_none Z.eqb Zeqb_ok). auto.
  Qed.
  Lemma term_row_get : forall v (f : pystr -> A) r t j, is0 (zero : A) -> term_row v f r -> In (t, j) v -> same_cell (f t) (dget_default Z.eqb r j zero).
  Proof.
    intros v f r t j Z0 (ND & _ & H) I. unfold dget_default. destruct (H t j I) as [Q|[Q0 Q1]].
    - apply (dlookup_nodup Z.eqb Zeqb_ok) in Q; auto. rewrite Q. left. auto.
    - apply (dlookup_none Z.eqb Zeqb_ok) in Q0. rewrite Q0. right. auto.
  Qed.
End Dict.

(** * Feature hashing *)
Section Hasher.
  Context {A : arith}.
  Definition slot (n : Z) (alt : bool) (h : Z) (v : A) : Z * A :=
    (column n h, if alt then mul v (ofZ (if 0 <=? h then 1 else -1)) else v).
  Lemma hash_row_ok : forall n alt (toks : list pystr) hs, eqb (one : A) zero = false -> Forall2 (fun t h => hash t 0 = Ok h) toks hs ->
    hash_row n alt 0 (map (fun f => (f, FNum (one : A))) toks) = Ok (dict_of Z.eqb (map (fun h => slot n alt h one) hs)).
  Proof.
    intros n alt toks hs N F. unfold hash_row, dict_of. generalize (@nil (Z * A)). induction F as [|t h toks hs E F IH]; intro row; auto.
    cbn [map foldM snd fst]. rewrite N, E. cbn [bind fold_left fst snd slot]. apply IH.
  Qed.
  Lemma feature_hash_ok : forall t h, Forall (fun c => 0 <= c < 1114112) t -> Z.of_nat (length t) < 2 ^ 30 -> (hash t 0 = Ok h <-> feature_hash t h).
  Proof.
    intros t h F L. unfold hash, feature_hash.
    assert (LB : forall bs, utf8_bytes t bs -> Z.of_nat (length bs) < W).
    { intros bs (bss & H & ->). assert (Z.of_nat (length (concat bss)) <= 4 * Z.of_nat (length t)); [|unfold W; lia]. clear -H. induction H as [|c bs s bss H F IH]; [simpl; lia|]. cbn [concat]. rewrite app_length. cbn [length].
      assert ((length bs <= 4)%nat); [|lia]. destruct H as [[_ ->]|[[_ (a & b & -> & _)]|[[_ [_ (a & b & d & -> & _)]]|[_ (a & b & d & e & -> & _)]]]]; cbn [length]; lia. }
    split.
    - intro H. inv_bind H. injection H as <-. apply utf8_ok in E; auto. exists a. split; auto. apply hash_bytes_ok; [unfold W; lia|eapply utf8_bytes_byte; eauto|auto].
    - intros (bs & U & ->). rewrite (proj2 (utf8_ok t bs F) U). cbn [bind]. f_equal. apply hash_bytes_ok; [unfold W; lia|eapply utf8_bytes_byte; eauto|auto].
  Qed.
End Hasher.
