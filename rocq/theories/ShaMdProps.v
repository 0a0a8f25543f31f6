(* C90: collisions of SHA-256 and of transcripts over it come from collisions of
   the compression function; length extension. *)
From Coq Require Import NArith Ascii String.
Set Warnings "-notation-overridden,-ambiguous-paths".
From mathcomp Require Import all_ssreflect all_algebra.
From mathcomp Require Import zify.
From Verif Require Import Base BaseLemmas Sha256 ShaProps ShaMdSpec.

Set Implicit Arguments.
Unset Strict Implicit.
Unset Printing Implicit Defensive.

(* ------------------------------------------------------------------ *)
(* big-endian bytes *)
Lemma be_bytes_acc k n acc : be_bytes k n acc = be_bytes k n [::] ++ acc.
Proof.
elim: k n acc => [|k IH] n acc //=.
by rewrite IH [in RHS]IH -catA.
Qed.

Lemma be_bytesS k n : be_bytes k.+1 n [::] = rcons (be_bytes k (N.shiftr n 8) [::]) (ascii_of_N (N.land n 255)).
Proof. by rewrite /= be_bytes_acc cats1. Qed.

Lemma ascii_of_N_inj a b : (a < 256)%num -> (b < 256)%num -> ascii_of_N a = ascii_of_N b -> a = b.
Proof. by move=> ha hb e; rewrite -(N_ascii_embedding a ha) -(N_ascii_embedding b hb) e. Qed.

Lemma land255 n : N.land n 255 = (n mod 256)%num.
Proof. by rewrite -[255%num]/(N.ones 8) N.land_ones. Qed.

Lemma be_bytes_inj k n n' : (n < 256 ^ N.of_nat k)%num -> (n' < 256 ^ N.of_nat k)%num ->
  be_bytes k n [::] = be_bytes k n' [::] -> n = n'.
Proof.
elim: k n n' => [|k IH] n n'; first by rewrite /= => h h' _; move: h h'; clear; lia.
rewrite !be_bytesS Nat2N.inj_succ N.pow_succ_r' => h h' /rcons_inj[e1 e2].
have q8 x : N.shiftr x 8 = (x / 256)%num by rewrite N.shiftr_div_pow2.
have e3 : (n mod 256 = n' mod 256)%num.
  by move: e2; rewrite !land255; apply: ascii_of_N_inj; apply: N.mod_upper_bound.
have e4 : (n / 256 = n' / 256)%num.
  apply: IH; [exact: N.div_lt_upper_bound|exact: N.div_lt_upper_bound|by rewrite -!q8].
by rewrite (N.div_mod n 256) // (N.div_mod n' 256) // e3 e4.
Qed.

Local Arguments be_bytes : simpl never.
Local Arguments sha_compress : simpl never.

(* ------------------------------------------------------------------ *)
(* states of 32-bit words *)
Definition word_ok (x : N) : Prop := (x < 4294967296)%num.
Definition state_ok (st : sha_state) : Prop :=
  [/\ word_ok (sa st), word_ok (sb st), word_ok (sc st) & word_ok (sd st)] /\
  [/\ word_ok (se st), word_ok (sf st), word_ok (sg st) & word_ok (sh st)].

Lemma add32_ok x y : word_ok (add32 x y).
Proof.
rewrite /word_ok /add32 /w32 -[4294967295%num]/(N.ones 32) N.land_ones; exact: N.mod_upper_bound.
Qed.

Lemma compress_ok st b : state_ok (sha_compress st b).
Proof. by split; split; apply: add32_ok. Qed.

Lemma init_ok : state_ok sha_init.
Proof. by []. Qed.

Lemma blocks_ok f st p : state_ok st -> state_ok (sha_blocks f st p).
Proof.
elim: f st p => [|f IH] st p ok //=; case: p => // c p; apply: IH; exact: compress_ok.
Qed.

Lemma output_inj st st' : state_ok st -> state_ok st' -> sha_output st = sha_output st' -> st = st'.
Proof.
case: st => a b c d e f g h; case: st' => a' b' c' d' e' f' g' h'.
case=> -[/= h1 h2 h3 h4] [h5 h6 h7 h8] [[/= k1 k2 k3 k4] [k5 k6 k7 k8]].
rewrite /sha_output /= => E.
have H x x' (s s' : bytes) : word_ok x -> word_ok x' -> be_bytes 4 x s = be_bytes 4 x' s' -> x = x' /\ s = s'.
  move=> hx hx'; rewrite (be_bytes_acc 4 x) (be_bytes_acc 4 x') => /eqP.
  rewrite eqseq_cat; last by rewrite !size_be_bytes.
  by case/andP=> /eqP e1 /eqP ->; split=> //; apply: be_bytes_inj e1.
move: E; case/(H _ _ _ _ h1 k1) => ->; case/(H _ _ _ _ h2 k2) => ->; case/(H _ _ _ _ h3 k3) => ->.
case/(H _ _ _ _ h4 k4) => ->; case/(H _ _ _ _ h5 k5) => ->; case/(H _ _ _ _ h6 k6) => ->.
by case/(H _ _ _ _ h7 k7) => ->; case/(H _ _ _ _ h8 k8) => ->.
Qed.

(* ------------------------------------------------------------------ *)
(* chaining *)
Lemma blocks_step f st (p : bytes) : p <> [::] ->
  sha_blocks f.+1 st p = sha_blocks f (sha_compress st (take 64 p)) (drop 64 p).
Proof. by case: p. Qed.

Lemma blocks_cat k st f (q r : bytes) : size q = (64 * k)%N -> (size q + size r <= f)%N ->
  sha_blocks f st (q ++ r) = sha_blocks (size r) (sha_blocks (size q) st q) r.
Proof.
suff fuel st0 f0 p : (size p <= f0)%N -> sha_blocks f0 st0 p = sha_blocks (size p) st0 p.
  elim: k st f q => [|k IH] st f q sq; first by rewrite (size0nil sq) /= => /fuel.
  move=> le; have sz : (64 <= size q)%N by rewrite sq mulnS leq_addr.
  have nq : q <> [::] by move=> e; rewrite e in sz.
  have nqr : q ++ r <> [::] by case: (q) nq.
  case: f le => [|f] le; first by move: le sz; clear; lia.
  have {1}-> : size q = (size q).-1.+1 by move: sz; clear; lia.
  rewrite !blocks_step // takel_cat //; move: q sq le sz nq nqr => p sq le sz nq nqr; rewrite drop_cat.
  have -> : (if (64 < size p)%N then drop 64 p ++ r else drop (64 - size p) r) = drop 64 p ++ r.
    case: ltnP => // le2; have e : size p = 64%N by apply/eqP; rewrite eqn_leq le2 sz.
    by rewrite e subnn drop0 -e drop_size.
  have sd : size (drop 64 p) = (64 * k)%N by rewrite size_drop sq mulnS addKn.
  rewrite IH //; last by rewrite size_drop; move: le sz; clear; lia.
  congr (sha_blocks _ _ _); rewrite [RHS]fuel //.
  by rewrite size_drop; move: sz; clear; lia.
move=> le; have := leqnn (size p); move: {2 3}(size p) => f1 le1.
elim: f0 f1 st0 p le le1 => [|f0 IH] f1 st0 p; first by case: p => // _; case: f1.
case: (@eqP _ p [::]) => [->|np]; first by case: f1.
case: f1 => [|f1] le le1; first by case: p np le le1.
rewrite !blocks_step //; have lt : (size (drop 64 p) < size p)%N.
  by rewrite size_drop ltn_subrL /=; case: p np {le le1}.
by apply: IH; rewrite -ltnS; apply: leq_trans lt _.
Qed.

Lemma chain_block (q b : bytes) : (64 %| size q)%N -> size b = 64%N ->
  chaining_value (q ++ b) = sha_compress (chaining_value q) b.
Proof.
case/dvdnP=> k; rewrite mulnC => sq sb; rewrite /chaining_value size_cat (blocks_cat _ sq) //.
have nb : b <> [::] by case: b sb.
rewrite sb blocks_step // take_oversize ?sb // drop_oversize ?sb //.
Qed.

(* sha256 of a message is the output of the chaining value of the padded message *)
Lemma sha_chain m : sha256_standard m = sha_output (chaining_value (sha_pad m)).
Proof. by []. Qed.

Lemma last_block (p : bytes) : (64 %| size p)%N -> p <> [::] ->
  exists q b, [/\ p = q ++ b, (64 %| size q)%N, size b = 64%N & (size q < size p)%N].
Proof.
case/dvdnP=> -[|k] sp np; first by rewrite (size0nil sp) in np.
exists (take (k * 64) p), (drop (k * 64) p).
have le : (k * 64 <= size p)%N by rewrite sp leq_mul2r leqnSn orbT.
rewrite cat_take_drop size_drop size_takel //; split=> //; first exact: dvdn_mull.
- by rewrite sp mulSn addnK.
by rewrite sp ltn_mul2r ltnSn.
Qed.

(* two different block sequences of the same length with the same chaining value *)
Lemma chain_collision (p p' : bytes) : (64 %| size p)%N -> size p = size p' -> p <> p' ->
  chaining_value p = chaining_value p' ->
  exists q b q' b', [/\ prefix (q ++ b) p, prefix (q' ++ b') p', (64 %| size q)%N /\ (64 %| size q')%N,
     size b = 64%N /\ size b' = 64%N
   & (chaining_value q, b) <> (chaining_value q', b') /\
     sha_compress (chaining_value q) b = sha_compress (chaining_value q') b'].
Proof.
have [n] := ubnP (size p); elim: n p p' => // n IH p p' lt dv es ne ec.
have np : p <> [::].
  by move=> e; apply: ne; move: es; rewrite e => /esym/size0nil ->.
have np' : p' <> [::] by move=> e; apply: np; apply: size0nil; rewrite es e.
have dv' : (64 %| size p')%N by rewrite -es.
have [q [b [Ep dq sb ltq]]] := last_block dv np.
have [q' [b' [Ep' dq' sb' ltq']]] := last_block dv' np'.
move: ec; rewrite Ep Ep' !chain_block // => ec.
case: (@eqP _ b b') => [eb|nb]; last first.
  exists q, b, q', b'; split; rewrite ?prefix_refl //; split=> // -[_]; exact: nb.
have sq : size q = size q'.
  by move: es; rewrite Ep Ep' !size_cat sb sb' => /addIn.
have nq : q <> q' by move=> e; apply: ne; rewrite Ep Ep' e eb.
have [ecq|necq] : (chaining_value q = chaining_value q') \/ (chaining_value q <> chaining_value q').
  have dec (x y : sha_state) : {x = y} + {x <> y} by decide equality; apply: N.eq_dec.
  by case: (dec (chaining_value q) (chaining_value q')); [left|right].
- have ltn : (size q < n)%N by apply: leq_trans ltq _; rewrite -ltnS.
  have [u [c [u' [c' [h1 h2 h3 h4 h5]]]]] := IH q q' ltn dq sq nq ecq.
  exists u, c, u', c'; split=> //.
    by case/prefixP: h1 => t ->; rewrite -[(_ ++ t) ++ b]catA; apply: prefix_prefix.
  by case/prefixP: h2 => t ->; rewrite -[(_ ++ t) ++ b']catA; apply: prefix_prefix.
by exists q, b, q', b'; split; rewrite ?prefix_refl //; split=> // -[].
Qed.


(* ------------------------------------------------------------------ *)
Lemma pad_split m : exists z, sha_pad m = z ++ be_bytes 8 (8 * N.of_nat (size m)) [::].
Proof.
by exists (m ++ ascii_of_N 128 :: nseq (zeros_needed (size m)) (ascii_of_N 0)); rewrite /sha_pad -catA.
Qed.

Lemma pad_neq0 m : sha_pad m <> [::].
Proof. by rewrite /sha_pad; case: m. Qed.

Lemma size_pad m : size (sha_pad m) = (size m + zeros_needed (size m) + 9)%N.
Proof. by rewrite /sha_pad size_padded. Qed.

(* Different messages (of less than 2^61 bytes) with the same digest: somewhere along
   the two computations the compression function maps two different inputs to the
   same chaining value. *)
Theorem C90_collision_reduction m m' : sha_length_ok m -> sha_length_ok m' -> m <> m' ->
  sha256_standard m = sha256_standard m' -> compression_collision m m'.
Proof.
move=> ok ok' ne; rewrite !sha_chain => /output_inj ec.
have {}ec : chaining_value (sha_pad m) = chaining_value (sha_pad m').
  by apply: ec; apply: blocks_ok; apply: init_ok.
have dv := C75_padding_blocks m; have dv' := C75_padding_blocks m'.
case: (@eqP _ (size m) (size m')) => [es|ns].
  have ep : size (sha_pad m) = size (sha_pad m') by rewrite !size_pad es.
  have np : sha_pad m <> sha_pad m'.
    move=> e; apply: ne; move/(congr1 (take (size m))): e.
    by rewrite /sha_pad take_size_cat // es take_size_cat.
  have [q [b [q' [b' [h1 h2 [h3 h3'] [h4 h4'] [h5 h6]]]]]] := chain_collision dv ep np ec.
  by exists q, b, q', b'; split.
have [q [b [Ep dq sb _]]] := last_block dv (@pad_neq0 m).
have [q' [b' [Ep' dq' sb' _]]] := last_block dv' (@pad_neq0 m').
have nb : b <> b'.
  move=> eb; apply: ns; have [z Ez] := pad_split m; have [z' Ez'] := pad_split m'.
  have tail (x t r u : bytes) : x ++ t = r ++ u -> size t = 64%N -> size u = 8%N -> drop 56 t = u.
    move=> e st su; have := congr1 (drop (size x + 56)) e; rewrite drop_cat ltnNge leq_addr /= addKn => ->.
    have er : size r = (size x + 56)%N by have := congr1 size e; rewrite !size_cat st su; clear; lia.
    by rewrite -er drop_size_cat.
  have s8 n : size (be_bytes 8 n [::]) = 8%N by rewrite size_be_bytes.
  have e1 := tail _ _ _ _ (etrans (esym Ep) Ez) sb (s8 _).
  have e2 := tail _ _ _ _ (etrans (esym Ep') Ez') sb' (s8 _).
  move: e2; rewrite -eb e1 => /be_bytes_inj e2.
  have := e2 ok ok'; clear; lia.
exists q, b, q', b'; split.
- by split=> //; rewrite -Ep prefix_refl.
- by split=> //; rewrite -Ep' prefix_refl.
- by case.
by move: ec; rewrite Ep Ep' !chain_block.
Qed.

(* The padding loses nothing. *)
Theorem C90_padding_injective m m' : sha_length_ok m -> sha_length_ok m' ->
  sha_pad m = sha_pad m' -> m = m'.
Proof.
move=> ok ok' e; have [z Ez] := pad_split m; have [z' Ez'] := pad_split m'.
have : be_bytes 8 (8 * N.of_nat (size m)) [::] = be_bytes 8 (8 * N.of_nat (size m')) [::].
  have /eqP e2 := e; move: e2; rewrite Ez Ez' eqseq_cat; first by case/andP=> _ /eqP.
  by have := congr1 size e; rewrite Ez Ez' !size_cat !size_be_bytes => /addIn.
move/be_bytes_inj => /(_ ok ok') es.
have {}es : size m = size m' by move: es; clear; lia.
by move/(congr1 (take (size m))): e; rewrite /sha_pad take_size_cat // es take_size_cat.
Qed.

(* ------------------------------------------------------------------ *)
(* length extension *)
Lemma word_bytes x (r : bytes) : word_ok x -> words (be_bytes 4 x r) = x :: words r.
Proof.
move=> ok; rewrite be_bytes_acc !be_bytesS.
have q8 y : N.shiftr y 8 = (y / 256)%num by rewrite N.shiftr_div_pow2.
rewrite !q8 !land255.
have em y : N_of_ascii (ascii_of_N (y mod 256)) = (y mod 256)%num.
  by apply: N_ascii_embedding; apply: N.mod_upper_bound.
rewrite [rcons _ _ ++ r]/= [words _]/= !em; congr cons.
have x4 : (x / 256 / 256 / 256 < 256)%num.
  by do 3! (apply: N.div_lt_upper_bound => //).
rewrite (N.mod_small _ _ x4).
by rewrite ![(_ * 256)%num]N.mul_comm -!N.div_mod.
Qed.

Definition state_of_digest (d : bytes) : sha_state :=
  let w i := nth 0%num (words d) i in ShaState (w 0) (w 1) (w 2) (w 3) (w 4) (w 5) (w 6) (w 7).

Lemma state_of_output st : state_ok st -> state_of_digest (sha_output st) = st.
Proof.
case: st => a b c d e f g h [[h1 h2 h3 h4] [h5 h6 h7 h8]].
rewrite /state_of_digest /sha_output (word_bytes _ h1) (word_bytes _ h2) (word_bytes _ h3) (word_bytes _ h4).
by rewrite (word_bytes _ h5) (word_bytes _ h6) (word_bytes _ h7) (word_bytes _ h8).
Qed.

(* The digest of a padded message with anything appended can be computed from the
   digest and the length of the message alone. *)
Theorem C90_length_extension : exists extend : bytes -> nat -> bytes -> bytes,
  forall m x, sha256_standard (sha_pad m ++ x) = extend (sha256_standard m) (size m) x.
Proof.
pose tail n x := x ++ ascii_of_N 128 :: nseq (zeros_needed (n + size x)) (ascii_of_N 0)
    ++ be_bytes 8 (8 * N.of_nat (n + size x)) [::].
exists (fun d n x => let t := tail (n + zeros_needed n + 9)%N x in sha_output (sha_blocks (size t) (state_of_digest d) t)).
move=> m x; rewrite !sha_chain /chaining_value state_of_output; last by apply: blocks_ok; apply: init_ok.
rewrite -size_pad; have -> : sha_pad (sha_pad m ++ x) = sha_pad m ++ tail (size (sha_pad m)) x.
  by rewrite {1}/sha_pad size_cat -catA.
have /dvdnP[k] := C75_padding_blocks m; rewrite mulnC => sp.
by rewrite (blocks_cat _ sp) // size_cat.
Qed.

(* The three test vectors of the standard (a check of the definition, not a claim
   about all messages). *)
Theorem C75_test_vectors :
  [/\ digest_number (sha256_standard [::]) 0 =
       0xe3b0c44298fc1c149afbf4c8996fb92427ae41e4649b934ca495991b7852b855%num,
      digest_number (sha256_standard (str "abc")) 0 =
       0xba7816bf8f01cfea414140de5dae2223b00361a396177a9cb410ff61f20015ad%num &
      digest_number (sha256_standard (str "abcdbcdecdefdefgefghfghighijhijkijkljklmklmnlmnomnopnopq")) 0 =
       0x248d6a61d20638b8e5c026930c3e6039a33ce45964ff2167f6ecedd419db06c1%num].
Proof. by split; vm_compute. Qed.

(* ------------------------------------------------------------------ *)
(* the transcripts *)
From Verif Require Import ArkPoly ArkDomain Concrete ConcreteProps KzgModel PlonkModel PlonkSpec NovaModel NovaSpec NovaProps
  BasePrime Encodings EncodingProps FriModel FriSpec FriProps.

Import GRing.Theory.

Lemma short_ok (b : bytes) : (size b <= 256)%N -> sha_length_ok b.
Proof. by rewrite /sha_length_ok; move: (size b) => n le; rewrite -[(2 ^ 64)%num]/18446744073709551616%num; move: le; clear; lia. Qed.

Lemma short_collision (x y : bytes) : (size x <= 256)%N -> (size y <= 256)%N -> x <> y ->
  sha256_standard x = sha256_standard y -> compression_collision x y.
Proof. by move=> /short_ok hx /short_ok hy; apply: C90_collision_reduction. Qed.

(* PLONK: two lists of commitments that lead to the same transcript state are equal,
   or give a collision of the compression function. *)
Theorem C90_plonk_transcript (F B : fieldType) (E : pairing_group F) (X : plonk_env E)
  (rep : B -> N) (coords : G1 E -> affine B) (cs cs' : seq (G1 E)) :
  bigint_of bls_q rep -> injective coords -> (forall c, pk_ser_g1 X c = point_bytes rep (coords c)) ->
  PlonkSpec.fs_chain X sha256_standard cs = PlonkSpec.fs_chain X sha256_standard cs' ->
  cs = cs' \/
  exists x y, [/\ x \in fs_inputs X sha256_standard [::] cs, y \in fs_inputs X sha256_standard [::] cs'
    & compression_collision x y].
Proof.
move=> H ci ser; case/(C86_plonk_binding H ci ser); [by left|case=> x [y [hx hy ne e]]].
right; exists x, y; split=> //; have [_ sz] := C86_point_bytes H.
have short d (ms : seq (G1 E)) z : (size d <= 32)%N -> z \in fs_inputs X sha256_standard d ms -> (size z <= 256)%N.
  elim: ms d => //= c ms IH d le; rewrite inE => /orP[/eqP ->|]; last by apply: IH; rewrite C75_digest_length.
  by rewrite size_cat ser sz; move: le; clear; lia.
by apply: short_collision => //; [apply: short hx|apply: short hy].
Qed.

(* Nova *)
Theorem C90_nova_transcript (F B : fieldType) (E : pairing_group F) (X : nova_env B E)
  (repF : F -> N) (repB : B -> N) (coords : G1 E -> affine B) ops ops' outs outs' t t' :
  bigint_of bls_r repF -> bigint_of bls_q repB -> injective coords ->
  (forall c, ser_g1 X c = point_bytes repB (coords c)) -> (forall x, ser_fr X x = field_bytes 32 repF x) ->
  (forall b, digest X b = sha256_standard b) ->
  nt_run X nt_default ops = Ret (outs, t) -> nt_run X nt_default ops' = Ret (outs', t') ->
  nt_data t = nt_data t' ->
  [seq o <- ops | is_feed o] = [seq o <- ops' | is_feed o] \/
  exists x y, [/\ x \in hash_chain_inputs X [::] (fed X ops), y \in hash_chain_inputs X [::] (fed X ops')
    & compression_collision x y].
Proof.
move=> HF HB ci Eg Efr Ed R1 R2 ed.
case: (C86_nova_binding HF HB ci Eg Efr Ed R1 R2 ed); [by left|case=> x [y [hx hy ne e]]].
right; exists x, y; split=> //; have [_ sg] := C86_point_bytes HB; have [_ sf] := C86_scalar_bytes HF.
have small o : all (fun m => size m <= 96)%N (fed X o) by elim: o => //= -[c|z|n] o IH //=; rewrite ?Eg ?sg ?Efr ?sf IH.
have short d (ms : seq bytes) z : (size d <= 32)%N -> all (fun m => size m <= 96)%N ms ->
    z \in hash_chain_inputs X d ms -> (size z <= 256)%N.
  elim: ms d => //= c ms IH d le /andP[lc hms]; rewrite inE => /orP[/eqP ->|]; last first.
    by apply: IH => //; rewrite Ed C75_digest_length.
  by rewrite size_cat; move: le lc; clear; lia.
by apply: short_collision => //; [apply: short hx|apply: short hy].
Qed.

(* decimal numbers of at most twenty digits *)
Lemma size_decimal n k : (n < 10 ^ k)%N -> (size (decimal n) <= k)%N.
Proof.
rewrite /decimal; suff H f : forall m acc j, (m < 10 ^ j)%N -> (size (decimal_fuel f m acc) <= size acc + j)%N.
  by move/(H n n [::]).
elim: f => [|f IH] m acc j; first by rewrite leq_addr.
rewrite /=; case: eqP => [_|/eqP m0] lt; first by rewrite leq_addr.
case: j lt => [|j] lt; first by case: (m) m0 lt.
by rewrite addnS -addSn; apply: (IH _ (_ :: acc)); rewrite ltn_divLR // mulnC -expnS.
Qed.

Lemma goldilocks_digits : (N.to_nat goldilocks_p < 10 ^ 20)%N.
Proof.
have -> : (10 ^ 20 = N.to_nat (10 ^ 20))%N.
  have e (a : N) b : (N.to_nat a ^ b = N.to_nat (a ^ N.of_nat b))%N.
    elim: b => [|b IH] //; rewrite expnS IH -multE -N2Nat.inj_mul; congr N.to_nat.
    by rewrite Nat2N.inj_succ N.pow_succ_r'.
  exact: (e 10%num 20%N).
have lt : (goldilocks_p < 10 ^ 20)%num by vm_compute.
by move: lt; move: goldilocks_p (10 ^ 20)%num => a b; clear; lia.
Qed.

(* FRI over the Goldilocks field *)
Theorem C90_fri_transcript (p : nat) (X : fri_env [fieldType of 'F_p]) (m1 m2 : 'F_p) (ops1 ops2 : seq (tr_op 'F_p))
  outs1 outs2 t1 t2 :
  p = N.to_nat goldilocks_p -> (forall x : 'F_p, to_string X x = decimal x) ->
  (size (m1 :: digested ops1) < 2 ^ 56)%N -> (size (m2 :: digested ops2) < 2 ^ 56)%N ->
  tr_run X sha256_standard (tr_new X sha256_standard m1) ops1 = Ret (outs1, t1) ->
  tr_run X sha256_standard (tr_new X sha256_standard m2) ops2 = Ret (outs2, t2) ->
  tr_data t1 = tr_data t2 ->
  m1 :: digested ops1 = m2 :: digested ops2 \/
  exists x y, [/\ x \in chain_inputs X sha256_standard (m1 :: digested ops1),
    y \in chain_inputs X sha256_standard (m2 :: digested ops2) & compression_collision x y].
Proof.
move=> Ep Hs l1 l2 R1 R2 ed.
have pp : prime p by rewrite Ep; have [_ ] := C63_goldilocks_prime.
have H20 (x : 'F_p) : (size (decimal x) <= 20)%N.
  apply: size_decimal; apply: ltn_trans goldilocks_digits; rewrite -Ep -{2}(Fp_cast pp); exact: ltn_ord.
have L8 : (8 <= 32)%N by [].
case: (C16_transcript_binding_prime_field Hs L8 C75_digest_length l1 l2 R1 R2 ed); [by left|case=> x [y [hx hy ne e]]].
right; exists x, y; split=> //.
have short i d (ms : seq 'F_p) z : (size d <= 32)%N ->
    z \in chain_inputs_from X sha256_standard i d ms -> (size z <= 256)%N.
  elim: ms i d => //= c ms IH i d le; rewrite inE => /orP[/eqP ->|]; last first.
    by apply: IH; rewrite C75_digest_length.
  by rewrite size_cat /= Hs; have := H20 c; move: le; clear; lia.
apply: short_collision => //; [exact: short hx|exact: short hy|exact/eqP].
Qed.
