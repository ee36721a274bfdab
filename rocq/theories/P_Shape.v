(** Proofs of C96: shapes and exceptions of the low rank drivers in any arithmetic. *)
From mathcomp Require Import all_ssreflect all_algebra.
From mathcomp Require Import zify.
From Verif Require Import Base Arr Lapack Rng Aware RangeFinders QB SvdEvd Interp Pcg Lsqr Precond LstSq Shape.
Set Implicit Arguments.
Unset Strict Implicit.
Unset Printing Implicit Defensive.

Section Rules.
Context {T : Type} {O : ops T} {G : Type}.
Variable X : exn -> Prop.

Lemma safe_ret Y (P : Y -> Prop) y : P y -> safe X P (ret y : M G T Y).
Proof. by move=> h s. Qed.
Lemma safe_raise Y (P : Y -> Prop) e : X e -> safe X P (raise e : M G T Y).
Proof. by move=> h s. Qed.
Lemma safe_lift Y (P : Y -> Prop) c : rsafe X P c -> safe X P (lift c : M G T Y).
Proof. by move=> h s. Qed.
Lemma safe_bind Y Z (Q : Y -> Prop) (P : Z -> Prop) (c : M G T Y) f :
  safe X Q c -> (forall y, Q y -> safe X P (f y)) -> safe X P (bind c f).
Proof. by move=> h hf s; rewrite /bind; have := h s; case: (c s) => s' [e|y] //= /hf. Qed.
Lemma safe_emit Y (P : Y -> Prop) e (f : unit -> M G T Y) : safe X P (f tt) -> safe X P (bind (emit e) f).
Proof. by move=> h s; exact: h. Qed.
Lemma safe_passert Y (P : Y -> Prop) (b : bool) (f : unit -> M G T Y) : b -> safe X P (f tt) -> safe X P (bind (passert b) f).
Proof. by move=> -> h s; exact: h. Qed.
Lemma safe_weak Y (P Q : Y -> Prop) (c : M G T Y) : safe X P c -> (forall y, P y -> Q y) -> safe X Q c.
Proof. by move=> h w s; have := h s; case: ((c s).2) => //= y /w. Qed.
Lemma safe_rng Y (P : Y -> Prop) (r : rng_ops G T) a (c : M G T Y) : safe X P c -> safe X P (with_rng r a c).
Proof.
move=> h s; case: a => [|z|v]; first exact: h.
  by have := h (St (r_seed r z) (evs s)); rewrite /with_rng; case: (c _).
by have := h (St (r_seeds r v) (evs s)); rewrite /with_rng; case: (c _).
Qed.
Lemma rsafe_bind Y Z (Q : Y -> Prop) (P : Z -> Prop) (c : res Y) f :
  rsafe X Q c -> (forall y, Q y -> rsafe X P (f y)) -> rsafe X P (rbind c f).
Proof. by case: c => [e|y] //= h; apply. Qed.
Lemma rsafe_weak Y (P Q : Y -> Prop) c : rsafe X P c -> (forall y, P y -> Q y) -> rsafe X Q c.
Proof. by case: c => [e|y] //= h; apply. Qed.

Lemma sh_mk m n f : shaped m n (mk m n f : arr T).
Proof. by split=> //; apply: eq_mk => i j im jn; rewrite el_mk. Qed.
Lemma sh_mtr m n (A : arr T) : shaped m n A -> shaped n m (mtr A).
Proof. by case=> _ <- <-; exact: sh_mk. Qed.
Lemma sh_mmul m n p (A B : arr T) : shaped m n A -> shaped n p B -> rsafe X (shaped m p) (mmul A B).
Proof. by case=> _ <- <- [_ e <-]; rewrite /mmul e eqxx; exact: sh_mk. Qed.
Lemma sh_madd m n (A B : arr T) : shaped m n A -> shaped m n B -> rsafe X (shaped m n) (madd A B).
Proof. by case=> _ <- <- [_ a b]; rewrite /madd a b !eqxx; exact: sh_mk. Qed.
Lemma sh_msub m n (A B : arr T) : shaped m n A -> shaped m n B -> rsafe X (shaped m n) (msub A B).
Proof. by case=> _ <- <- [_ a b]; rewrite /msub a b !eqxx; exact: sh_mk. Qed.
Lemma sh_hstack m n p (A B : arr T) : shaped m n A -> shaped m p B -> rsafe X (shaped m (n + p)) (hstack A B).
Proof. by case=> _ <- <- [_ a <-]; rewrite /hstack a eqxx; exact: sh_mk. Qed.
Lemma sh_vstack m n p (A B : arr T) : shaped m n A -> shaped p n B -> rsafe X (shaped (m + p) n) (vstack A B).
Proof. by case=> _ <- <- [_ <- a]; rewrite /vstack a eqxx; exact: sh_mk. Qed.
Lemma sh_cslice m n a b c (A : arr T) : shaped m n A -> slen n a b = c -> shaped m c (cslice A a b).
Proof. by case=> _ <- <- <-; exact: sh_mk. Qed.
Lemma sh_rslice m n a b c (A : arr T) : shaped m n A -> slen m a b = c -> shaped c n (rslice A a b).
Proof. by case=> _ <- <- <-; exact: sh_mk. Qed.
Lemma sh_cidx m n k (A : arr T) J : shaped m n A -> all (fun j => j < n) J -> size J = k -> rsafe X (shaped m k) (cidx A J).
Proof. by case=> _ <- <- h <-; rewrite /cidx h; exact: sh_mk. Qed.
Lemma sh_ridx m n k (A : arr T) J : shaped m n A -> all (fun j => j < m) J -> size J = k -> rsafe X (shaped k n) (ridx A J).
Proof. by case=> _ <- <- h <-; rewrite /ridx h; exact: sh_mk. Qed.
Lemma sh_vidx (v : seq T) J : all (fun j => j < size v) J -> rsafe X (fun w => size w = size J) (vidx v J).
Proof. by move=> h; rewrite /vidx h /= size_map. Qed.
Lemma sh_set_cidx m n (Z W : arr T) J : shaped m n Z -> shaped m (size J) W -> all (fun j => j < n) J ->
  rsafe X (shaped m n) (set_cidx Z J W).
Proof. by case=> _ <- <- [_ a b] h; rewrite /set_cidx h a b !eqxx; exact: sh_mk. Qed.
Lemma sh_solve n p lo tr (R B : arr T) : X LinAlgError -> shaped n n R -> shaped n p B ->
  rsafe X (shaped n p) (solve_tri lo tr R B).
Proof.
move=> xl [_ a b] [_ c <-]; rewrite /solve_tri /tri_check a b c eqxx /=; case: ifP => // _.
by rewrite /= -a; exact: sh_mk.
Qed.
Lemma sh_chol n (A : arr T) : X LinAlgError -> shaped n n A -> rsafe X (shaped n n) (cholesky A).
Proof.
by move=> xl [_ a b]; rewrite /cholesky a b eqxx /=; case: (chol_rows _ _) => [rows|] //; exact: sh_mk.
Qed.

Lemma sh_mul_l m n p (A : arr T) S : shaped m n A -> shaped n p S -> rsafe X (shaped m p) (mul_l A (PyArr S)).
Proof. exact: sh_mmul. Qed.
Lemma safe_passA m n p (A S : arr T) : shaped m n A -> shaped n p S -> safe X (shaped m p) (passA A (PyArr S) : M G T _).
Proof. by move=> a b; apply: safe_emit; apply: safe_lift; exact: (sh_mul_l a b). Qed.
Lemma safe_passAt m n p (A S : arr T) : shaped m n A -> shaped m p S -> safe X (shaped n p) (passAt A (PyArr S) : M G T _).
Proof. by move=> a b; apply: safe_emit; apply: safe_lift; apply: sh_mul_l b; exact: sh_mtr. Qed.
End Rules.

Definition shop {T} {O : ops T} m n (S : pyop T) : Prop := exists2 B, S = PyArr B & shaped m n B.

Section LowRank.
Context {T : Type} {O : ops T} {G : Type}.
Variables (X : exn -> Prop) (L : lapack T) (r : rng_ops G T).
Hypotheses (lsh : lap_shapes X L) (rok : rng_ok r).

Lemma safe_qr m n (A : arr T) : 0 < n -> n <= m -> shaped m n A ->
  rsafe X (fun QR => shaped m n QR.1 /\ shaped n n QR.2) (l_qr L A).
Proof using lsh. by move=> n0 nm; have := lsh_qr lsh (leq_trans n0 nm) n0; rewrite (minn_idPr nm); apply. Qed.

Lemma safe_gauss m n : 0 < m -> 0 < n -> safe X (shop m n) (skopGA r m n).
Proof using rok.
move=> m0 n0; rewrite /skopGA /gaussian_operator gtn_eqF; last by rewrite leq_min m0.
move=> s; rewrite /getgen /bind; pose proof (ok_normal rok (gen s) (osqrt (o1 / onat (minn m n))%O) m n) as h; move: h.
by case: (r_normal _ _ _ _ _) => g S /= [w [a b]]; rewrite /ret /=; exists S.
Qed.

Lemma safe_stab m k (S : arr T) : 0 < k -> k <= m -> shaped m k S ->
  safe X (shaped m k) (stabilize (orth L) S : M G T _).
Proof using lsh.
move=> k0 km sS; apply: safe_emit; apply: safe_lift.
by apply: rsafe_bind (safe_qr k0 km sS) _ => QR [].
Qed.

Lemma safe_maybe_stab m k d (S : arr T) : 0 < k -> k <= m -> shaped m k S ->
  safe X (shaped m k) (maybe_stab (orth L) 1 d S : M G T _).
Proof using lsh. by move=> k0 km sS; rewrite /maybe_stab /= dvd1n; exact: safe_stab. Qed.

Lemma safe_rs1_loop m n k A : 0 < k -> k <= minn m n -> shaped m n A -> forall q d S, shop n k S ->
  safe X (shop n k) (rs1_loop (orth L) 1 A q d S : M G T _).
Proof using lsh.
move=> k0; rewrite leq_min => /andP[km kn] sA; elim=> [|q IH] d S [B -> sB] /=; first by apply: safe_ret; exists B.
apply: safe_bind (safe_passA _ sA sB) _ => S1 s1.
apply: safe_bind (safe_maybe_stab _ k0 km s1) _ => S2 s2.
apply: safe_bind (safe_passAt _ sA s2) _ => S3 s3.
apply: safe_bind (safe_maybe_stab _ k0 kn s3) _ => S4 s4.
by apply: IH; exists S4.
Qed.

Lemma safe_RS1 np m n k A : (0 <= np)%R -> 0 < k -> k <= minn m n -> shaped m n A ->
  safe X (shop n k) (RS1 (skopGA r) np (orth L) 1 A k).
Proof using lsh rok.
move=> np0 k0 kmn sA; have := kmn; rewrite leq_min => /andP[km kn]; have [_ eA1 eA2] := sA.
have m0 := leq_trans k0 km; have n0 := leq_trans k0 kn.
apply: safe_passert => //; cbv zeta; rewrite eA1 eA2; case: ifP => o.
  by apply: safe_bind (safe_emit _ (safe_gauss n0 k0)) _ => S; apply: safe_rs1_loop kmn sA _ _ _.
apply: safe_bind (safe_emit _ (safe_gauss m0 k0)) _ => _ [S -> sS].
apply: safe_bind (safe_passAt _ sA sS) _ => S1 s1 /=.
apply: safe_bind (safe_stab k0 kn s1) _ => S2 s2.
by apply: (safe_rs1_loop k0 kmn sA); exists S2.
Qed.

Lemma safe_RF1 rso m n k A tol : (0 < k)%N -> k <= minn m n -> shaped m n A ->
  safe X (shop n k) (rso A k) -> safe X (shaped m k) (RF1 L rso A k%:Z%R tol : M G T _).
Proof using lsh.
move=> k0 kmn sA hr; have := kmn; rewrite leq_min => /andP[km kn]; have [_ eA1 eA2] := sA.
rewrite /RF1 eA1 eA2; apply: safe_passert; first by [].
apply: safe_passert; first by rewrite lez_nat.
apply: (safe_bind (Q := fun _ => True)); first by case: tol => [x|]; [move=> s|apply: safe_ret].
move=> _ _; apply: safe_bind hr _ => _ [S -> sS].
apply: safe_bind (safe_passA _ sA sS) _ => Y sY.
by apply: safe_bind (safe_lift (safe_qr k0 km sY)) _ => QR [] a b; apply: safe_ret.
Qed.

Lemma safe_rf1 m n A (k np : int) a : (0 < k <= (minn m n)%:Z)%R -> (1 <= np)%R -> shaped m n A ->
  safe X (shaped m (absz k)) (rf1 L r A k np a).
Proof using lsh rok.
case: k => k // kmn np1 sA; apply: safe_rng; rewrite /=; apply: (safe_RF1 _ _ _ sA); [lia|lia|].
by apply: (safe_RS1 _ _ _ sA); lia.
Qed.

(** QB1, qb *)
Lemma safe_passQtA m n k (Q A : arr T) : shaped m k Q -> shaped m n A -> safe X (shaped k n) (passQtA Q A : M G T _).
Proof. by move=> a b; apply: safe_emit; apply: safe_lift; apply: sh_mmul b; exact: sh_mtr. Qed.

Lemma safe_qb m n A (k np : int) a : (0 < k <= (minn m n)%:Z)%R -> (2 <= np)%R -> shaped m n A ->
  safe X (fun QB => shaped m (absz k) QB.1 /\ shaped (absz k) n QB.2) (qb L r np A k a).
Proof using lsh rok.
case: k => k // kmn np1 sA; have [_ eA1 eA2] := sA; apply: safe_rng; rewrite /QB1 eA1 eA2 /=.
apply: safe_passert; first by lia.
apply: safe_passert; first by lia.
apply: (safe_bind (Q := fun _ => True)); first exact: safe_ret.
move=> _ _; apply: (safe_bind (Q := shaped m k)).
  by apply: (safe_RF1 (m := m) (n := n)) => //; [lia|lia|apply: (safe_RS1 _ _ _ sA); lia].
move=> Q sQ; apply: safe_bind (safe_passQtA sQ sA) _ => B sB; exact: safe_ret.
Qed.

(** QB2 *)
Lemma safe_project_out m k c (Qi Q : arr T) : shaped m k Qi -> shaped m c Q ->
  rsafe X (shaped m k) (project_out Qi Q).
Proof.
move=> a b; apply: rsafe_bind (sh_mmul _ (sh_mtr b) a) _ => W sW.
by apply: rsafe_bind (sh_mmul _ b sW) _ => P sP; exact: sh_msub.
Qed.

(** c columns after whole blocks of size b, or the target rank k. *)
Lemma safe_qb2_loop rf m n k b :
  (forall A j, (0 < j <= minn m n)%N -> shaped m n A -> safe X (shaped m j) (rf A j%:Z%R None : M G T _)) ->
  (0 < b)%N -> (k <= minn m n)%N -> forall fuel utol ab sqn A Q B c,
  shaped m n A -> shaped m c Q -> shaped c n B -> (c < k)%N -> (b %| c)%N -> (k - c < fuel)%N ->
  safe X (fun x => exists2 c, blocks b k c & [/\ shaped m c x.1.1, shaped c n x.1.2 & shaped m n x.2])
    (qb2_loop L fuel rf k utol ab b%:Z%R sqn A Q B).
Proof using lsh.
move=> hrf b0 kmn; elim=> [|fuel IH] utol ab sqn A Q B c sA sQ sB ck bc; first by [].
move=> fu; have [_ eB1 eB2] := sB; rewrite /= eB1.
have -> : (if (k%:Z < c%:Z + b%:Z)%R then (k%:Z - c%:Z)%R else b%:Z)%R = (minn b (k - c))%:Z%R by case: ifP; lia.
set j := minn b (k - c); have j0 : (0 < j)%N by rewrite /j; lia.
have jm : (j <= m)%N by rewrite /j; lia.
apply: (safe_bind (hrf A j _ sA)); first by rewrite /j; lia.
move=> Qi sQi; apply: safe_emit.
apply: safe_bind (safe_lift (safe_project_out sQi sQ)) _ => Qi' sQi'.
apply: safe_bind (safe_lift (safe_qr j0 jm sQi')) _ => QR [s1 _].
apply: safe_bind (safe_passQtA s1 sA) _ => Bi sBi.
apply: safe_bind (safe_lift (sh_hstack _ sQ s1)) _ => Q' sQ'.
apply: safe_bind (safe_lift (sh_vstack _ sB sBi)) _ => B' sB'.
apply: safe_bind (safe_lift (sh_mmul _ s1 sBi)) _ => P sP.
apply: safe_bind (safe_lift (sh_msub _ sA sP)) _ => A' sA'.
have [_ eB' _] := sB'.
have bl : blocks b k (c + j).
  split; first by rewrite /j; lia.
  have [h|h] := leqP b (k - c); last by left; rewrite /j; lia.
  by right; rewrite /j (minn_idPl h) dvdn_addl.
cbv zeta; case: ifP => _; first by apply: safe_ret; exists (c + j)%N.
rewrite eB'; case: ifP => ckk; first by apply: safe_ret; exists (c + j)%N.
have jE : j = b by move: ckk; rewrite /j; lia.
have := IH utol ab (if utol then osub sqn (osq (mnorm Bi)) else sqn) A' Q' B' (c + j)%N sA' sQ' sB'.
rewrite jE; apply; [move: ckk; lia|by rewrite dvdn_addl|lia].
Qed.

Lemma safe_QB2 rf m n (k : int) b ov A tol :
  (forall A j, (0 < j <= minn m n)%N -> shaped m n A -> safe X (shaped m j) (rf A j%:Z%R None : M G T _)) ->
  (0 < minn m n)%N -> (0 < k)%R -> (0 < b)%N -> shaped m n A ->
  safe X (fun x => exists2 c, blocks b (minn (absz k) (minn m n)) c &
      [/\ shaped m c x.1.1, shaped c n x.1.2 & shaped m n x.2]) (QB2 L rf b%:Z%R ov A k tol).
Proof using lsh.
move=> hrf mn0 k0 b0 sA; have [_ eA1 eA2] := sA; rewrite /QB2 eA1 eA2; apply: safe_passert => //; cbv zeta.
set kk := minn (absz k) (minn m n).
apply: (safe_bind (Q := fun x => x = kk)).
  case: ifP => h; [apply: safe_ret|apply: safe_emit; apply: safe_ret]; rewrite /kk; lia.
move=> _ ->; apply: safe_passert; first by rewrite /kk geq_minr.
apply: safe_bind.
  apply: (@safe_qb2_loop rf m n kk b hrf b0 (geq_minr _ _) kk.+1 _ _ _ A _ _ 0 sA) => //; try exact: sh_mk.
    by rewrite /kk; lia.
  by rewrite subn0.
move=> x [c bc [h1 h2 h3]]; apply: safe_ret; exists c => //; split=> //=.
by case: ov.
Qed.

Lemma rf_ok np m n A j tol : (0 <= np)%R -> (0 < j <= minn m n)%N -> shaped m n A ->
  safe X (shaped m j) (RF1 L (RS1 (skopGA r) np (orth L) 1%R) A j%:Z%R tol).
Proof using lsh rok. by move=> np0 /andP[j0 jm] sA; apply: (safe_RF1 _ j0 jm sA); exact: (safe_RS1 np0 j0 jm sA). Qed.

Lemma safe_qb_b m n A (k np : int) b ov tol a : (0 < minn m n)%N -> (0 < k)%R -> (0 < b)%N -> (2 <= np)%R ->
  shaped m n A ->
  safe X (fun x => exists2 c, blocks b (minn (absz k) (minn m n)) c &
      [/\ shaped m c x.1.1, shaped c n x.1.2 & shaped m n x.2]) (qb_b L r np b%:Z%R ov A k tol a).
Proof using lsh rok.
move=> mn0 k0 b0 np2 sA; apply: safe_rng; apply: safe_QB2 => // A' j j0 sA'.
apply: (rf_ok _ _ j0 sA'); lia.
Qed.

Lemma safe_noov m n A (k np : int) b tol : (0 < minn m n)%N -> (0 < k)%R -> (0 < b)%N -> (0 <= np)%R ->
  shaped m n A ->
  safe X (fun x => exists2 c, blocks b (minn (absz k) (minn m n)) c & shaped m c x.1 /\ shaped c n x.2)
    (QB2_noov L (RF1 L (RS1 (skopGA r) np (orth L) 1%R)) b%:Z%R A k tol).
Proof using lsh rok.
move=> mn0 k0 b0 np2 sA; apply: safe_bind.
  by apply: (safe_QB2 _ _ _ mn0 k0 b0 sA) => A' j j0 sA'; exact: (rf_ok _ np2 j0 sA').
by move=> x [c bc [h1 h2 _]]; apply: safe_ret; exists c.
Qed.

(** QB3, qb_b_pe *)
Lemma safe_qb3_loop m n k b utol ab Sk Gm H : X LinAlgError -> (0 < b)%N -> (k <= m)%N ->
  shaped n k Sk -> shaped m k Gm -> shaped n k H ->
  forall todo i sqn Q B c, c = minn (i * b) k -> (k <= (i + todo) * b < k + b)%N ->
  shaped m c Q -> shaped c n B ->
  safe X (fun x => exists2 c, (c <= k)%N /\ (c = k \/ b %| c) & shaped m c x.1 /\ shaped c n x.2)
    (qb3_loop L todo i k b utol ab Sk Gm H sqn Q B : M G T _).
Proof using lsh.
move=> xl b0 km sS sG sH; elim=> [|todo IH] i sqn Q B c cE fu sQ sB.
  by apply: safe_ret; exists c => //; split; [rewrite cE geq_minr|left; rewrite cE; apply/minn_idPr; move: fu; rewrite addn0; case/andP].
have ik : (i * b < k)%N by move: fu; rewrite addnS mulSn mulnDl; lia.
have cE' : c = (i * b)%N by rewrite cE; apply/minn_idPl/ltnW.
rewrite /=; set j := (minn (i.+1 * b) k - i * b)%N.
have e1 : minn (i * b) k = (i * b)%N by apply/minn_idPl/ltnW.
have jE : slen k (i * b) (minn (i.+1 * b) k) = j by rewrite /slen /j e1 -minnA minnn.
have j0 : (0 < j)%N by rewrite /j subn_gt0 leq_min ik andbT mulSn; lia.
have cj : (c + j = minn (i.+1 * b) k)%N.
  by rewrite cE' /j subnKC // leq_min mulSn leq_addl (ltnW ik).
have jm : (j <= m)%N by apply: leq_trans km; rewrite -[X in (_ <= X)%N](subnK (ltnW ik)) /j; lia.
have sSi := sh_cslice sS jE; have sGi := sh_cslice sG jE; have sHi := sh_cslice sH jE.
apply: safe_bind (safe_lift (sh_mmul X sB sSi)) _ => BSi s1.
apply: safe_bind (safe_lift (sh_mmul X sQ s1)) _ => QBSi s2.
apply: safe_bind (safe_lift (sh_msub X sGi s2)) _ => Yi sY.
apply: safe_bind (safe_lift (safe_qr j0 jm sY)) _ => QR [q1 q2].
apply: safe_bind (safe_lift (safe_project_out q1 sQ)) _ => Qi sQi.
apply: safe_bind (safe_lift (safe_qr j0 jm sQi)) _ => QR' [q1' q2'].
apply: safe_bind (safe_lift (sh_mmul X q2' q2)) _ => Ri sR.
apply: safe_bind (safe_lift (sh_mmul X (sh_mtr sY) sQ)) _ => YtQ s3.
apply: safe_bind (safe_lift (sh_mmul X s3 sB)) _ => YtQB s4.
apply: safe_bind (safe_lift (sh_msub X (sh_mtr sHi) s4)) _ => Bi s5.
apply: safe_bind (safe_lift (sh_mmul X (sh_mtr s1) sB)) _ => BStB s6.
apply: safe_bind (safe_lift (sh_msub X s5 s6)) _ => Bi' s7.
apply: safe_bind (safe_lift (sh_solve false true xl sR s7)) _ => Bi'' s8.
apply: safe_bind (safe_lift (sh_hstack X sQ q1')) _ => Q' sQ'.
apply: safe_bind (safe_lift (sh_vstack X sB s8)) _ => B' sB'.
cbv zeta; case: ifP => _.
  apply: safe_ret; exists (c + j)%N => //; rewrite cj geq_minr; split=> //.
  by case: (leqP (i.+1 * b) k) => h; [right; rewrite dvdn_mull|left].
apply: (IH _ _ _ _ (c + j)%N) => //; by rewrite addSnnS.
Qed.
Lemma safe_qb_b_pe m n A (k np : int) b tol a : X LinAlgError -> (0 < k < (minn m n)%:Z)%R -> (0 < b)%N -> (1 <= np)%R ->
  shaped m n A ->
  safe X (fun x => exists2 c, (c <= absz k)%N /\ (c = absz k \/ b %| c) & shaped m c x.1 /\ shaped c n x.2)
    (qb_b_pe L r np b%:Z%R A k tol a).
Proof using lsh rok.
case: k => k // xl kmn b0 np1 sA; have [_ eA1 eA2] := sA; apply: safe_rng; rewrite /QB3 eA1 eA2.
apply: safe_passert; first by lia.
apply: safe_passert; first by lia.
have kmn' : (k <= minn m n)%N by lia.
cbv zeta; rewrite /absz; apply: (safe_bind (Q := shop n k)); first by apply: (safe_RS1 _ _ kmn' sA); lia.
move=> _ [S -> sS]; apply: safe_bind (safe_passA X sA sS) _ => Gm sG.
apply: safe_bind (safe_passAt X sA sG) _ => H sH.
rewrite (_ : (b%:Z == 0)%R = false); last by lia.
rewrite (_ : (b%:Z < 0)%R = false); last by lia.
apply: (@safe_qb3_loop m n k b _ _ S Gm H xl b0 _ sS sG sH _ 0 _ _ _ 0); rewrite ?min0n ?add0n //; try exact: sh_mk.
  by lia.
have d1 := divn_eq (k + b).-1 b; have d2 := ltn_pmod (k + b).-1 b0; move: d1 d2.
set x := ((k + b).-1 %/ b * b)%N; set y := ((k + b).-1 %% b)%N; lia.
Qed.

(** svd1 *)
Lemma mask_idx_all f (v : seq T) : all (fun i => i < size v) (mask_idx f v).
Proof. by apply/allP=> i; rewrite mem_filter mem_iota => /and3P[]. Qed.

Lemma size_vslice0 (v : seq T) b : size (vslice v 0 b) = minn b (size v).
Proof. by rewrite /vslice drop0 subn0 size_take; case: ltnP. Qed.

Lemma safe_svd1 m n A (k over np : int) b tol a : (0 < minn m n)%N -> (0 <= k)%R -> (0 < k + over)%R -> (0 < b)%N ->
  (2 <= np)%R -> shaped m n A ->
  safe X (svd_shape m n (absz k)) (svd1 L r A k over tol np b%:Z%R a).
Proof using lsh rok.
case: k => k // mn0 _ ko b0 np2 sA; apply: safe_rng; apply: safe_bind.
  by apply: (safe_noov _ mn0 ko b0 _ sA); lia.
move=> QB [c [/andP[c0 ck] _] [sQ sB]].
have cn : (c <= n)%N by apply: leq_trans ck _; rewrite !geq_min leqnn !orbT.
apply: (safe_bind (Q := fun USV => [/\ shaped c c USV.1.1, size USV.1.2 = c & shaped c n USV.2])).
  by apply: safe_lift; have := lsh_svd lsh c0 (leq_trans c0 cn) sB; rewrite (minn_idPl cn).
move=> [[U s] Vh] /= [sU es sV]; cbv zeta.
set USV1 := if (0 < over)%R then _ else _.
have [d dk [sU1 es1 sV1]] : exists2 d, (d <= k)%N & [/\ shaped c d USV1.1.1, size USV1.1.2 = d & shaped d n USV1.2].
  rewrite /USV1; case: ifP => ov; last by exists c => //; move: ck ov; lia.
  have [[_ _ eU] [_ eV _]] := (sU, sV); rewrite es eU eV.
  have -> : Order.min (Posz k) (Posz c) = Posz (minn k c) by lia.
  exists (minn k c); first exact: geq_minl.
  have h : (minn k c <= c)%N by exact: geq_minr.
  split; rewrite /= ?(minn_idPl h).
  - by apply: (sh_cslice sU); rewrite /slen; lia.
  - by rewrite size_vslice0 es (minn_idPl h).
  - by apply: (sh_rslice sV); rewrite /slen; lia.
apply: (safe_bind (Q := fun USV => exists2 d, (d <= k)%N & [/\ shaped c d USV.1.1, size USV.1.2 = d & shaped d n USV.2])).
  case: ifP => _; last by apply: safe_ret; exists d.
  set I := mask_idx _ _.
  have aI : all (fun i => i < d) I by rewrite -es1; exact: mask_idx_all.
  have sI : (size I <= d)%N by rewrite /I /mask_idx size_filter -es1; apply: leq_trans (count_size _ _) _; rewrite size_iota.
  apply: safe_bind (safe_lift (sh_cidx X sU1 aI erefl)) _ => U2 sU2.
  apply: (safe_bind (Q := fun w => size w = size I)); first by apply: safe_lift; apply: sh_vidx; rewrite es1.
  move=> s2 es2; apply: safe_bind (safe_lift (sh_ridx X sV1 aI erefl)) _ => V2 sV2.
  by apply: safe_ret; exists (size I) => //; exact: leq_trans dk.
move=> USV [d' dk' [sU2 es2 sV2]].
apply: safe_bind (safe_lift (sh_mmul X sQ sU2)) _ => U3 sU3.
by apply: safe_ret; exists d'.
Qed.

(** evd1 *)
Lemma safe_evd1 asort n A (k over np : int) b tol a :
  (forall v : seq T, perm_eq (asort v) (iota 0 (size v))) ->
  (if tol is Some t then (o0 <= t / onat 2)%O else true) ->
  (0 < k <= n%:Z)%R -> (0 < k + over)%R -> (0 < b)%N -> (2 <= np)%R -> shaped n n A ->
  safe X (evd_shape n (absz k)) (evd1 L r asort A k tol over np b%:Z%R a).
Proof using lsh rok.
move=> hs htol kn ko b0 np2 sA; have [_ eA1 eA2] := sA.
have n0 : (0 < minn n n)%N by lia.
rewrite /evd1; apply: safe_passert => //; apply: safe_rng; rewrite /EVD1 eA1 eA2 minnn.
case/andP: kn => k0 kn; apply: safe_passert => //; apply: safe_passert => //.
apply: (safe_bind (Q := fun _ => True)).
  by case: tol htol => [t|] h; [rewrite /= h|]; apply: safe_ret.
move=> _ _; apply: safe_bind; first by apply: (safe_noov _ n0 ko b0 _ sA); lia.
move=> QB [c [/andP[c0 ck] _] [sQ sB]]; have [_ _ eQ] := sQ.
apply: safe_bind (safe_lift (sh_mmul X sB sQ)) _ => C sC.
apply: safe_bind (safe_lift (lsh_eigh lsh c0 sC)) _ => LU [eL sU].
cbv zeta; rewrite eQ; set rr := minn _ _; set I := take _ _.
have rc : (rr <= c)%N by rewrite /rr; apply: leq_trans (geq_minr _ _) (geq_minl _ _).
pose proof (hs (map (fun x => (- o1 * oabs x)%O) (map oabs LU.1))) as pI.
have sI : size I = rr by rewrite /I size_takel // (perm_size pI) size_iota !size_map eL.
have aI : all (fun j => j < c) I.
  apply/allP=> j /mem_take; rewrite (perm_mem pI) mem_iota !size_map eL; by case/andP.
apply: safe_bind (safe_lift (sh_cidx X sU aI sI)) _ => U sU'.
apply: (safe_bind (Q := fun w => size w = size I)); first by apply: safe_lift; apply: sh_vidx; rewrite eL.
move=> lam el; apply: safe_bind (safe_lift (sh_mmul X sQ sU')) _ => V sV.
by apply: safe_ret; exists rr; [rewrite /rr geq_minl|split=> //=; rewrite el].
Qed.

(** evd2 *)
Lemma safe_comps (sg : seq T) nu K : forall todo i, (i + todo < size sg)%N -> (i + todo < K)%N ->
  rsafe X (all (fun j => j < K)%N) (evd2_comps sg nu todo i).
Proof.
elim=> [//|t IH] i h1 h2 /=; rewrite ifT; last by lia.
apply: (rsafe_bind (IH i.+1 _ _)); [lia|lia|move=> l hl /=].
by case: ifP => _ //=; rewrite hl andbT; lia.
Qed.

Lemma safe_evd2 n A (k over np : int) a : X LinAlgError ->
  (0 < k < n%:Z)%R -> (0 <= over)%R -> (k + over <= n%:Z)%R -> (1 <= np)%R -> shaped n n A ->
  safe X (evd_shape n (absz k)) (evd2 L r A k over np a).
Proof using lsh rok.
move=> xl kn ov kon np1 sA; have [_ eA1 eA2] := sA.
rewrite /evd2; apply: safe_passert => //; apply: safe_rng; rewrite /EVD2 eA1.
case/andP: kn => k0 kn; apply: safe_passert => //; apply: safe_passert => //.
apply: (safe_bind (Q := fun _ => True)); first exact: safe_ret.
move=> _ _; rewrite ifF; last by lia.
set l := absz (k + over)%R; have kl : (absz k <= l)%N by rewrite /l; lia.
have l0 : (0 < l)%N by lia.
have ln : (l <= n)%N by rewrite /l; lia.
have ln' : (l <= minn n n)%N by rewrite minnn.
apply: (safe_bind (Q := shop n l)); first by apply: (safe_RS1 _ _ ln' sA); lia.
move=> _ [S -> sS]; apply: safe_bind (safe_passA X sA sS) _ => Y sY; cbv zeta.
have [_ eS1 eS2] := sS.
have sM : shaped n l (mscale (osqrt (onat n) * oeps * mnorm Y)%O S) by rewrite /mscale eS1 eS2; exact: sh_mk.
apply: safe_bind (safe_lift (sh_madd X sY sM)) _ => Y' sY'.
apply: safe_bind (safe_lift (sh_mmul X (sh_mtr sS) sY')) _ => C sC.
apply: safe_bind (safe_lift (sh_chol xl (sh_mtr sC))) _ => Lo sLo.
apply: safe_bind (safe_lift (sh_solve false true xl (sh_mtr sLo) (sh_mtr sY'))) _ => Bt sBt.
apply: (safe_bind (Q := fun USV => [/\ shaped n l USV.1.1, size USV.1.2 = l & shaped l l USV.2])).
  by apply: safe_lift; have := lsh_svd lsh (leq_trans l0 ln) l0 (sh_mtr sBt); rewrite (minn_idPr ln).
move=> [[U sg] Vh] /= [sU es sV].
apply: (safe_bind (Q := all (fun j => j < absz k)%N)).
  by apply: safe_lift; apply: safe_comps; rewrite ?es; lia.
move=> comps hc; set rr := foldr _ _ _.
have rk : (rr <= absz k)%N by rewrite /rr; elim: (comps) => //= x l' IH; exact: leq_trans (geq_minr _ _) IH.
have rl : (rr <= l)%N by exact: leq_trans kl.
apply: safe_ret; exists rr => //; split; first by apply: (sh_cslice sU); rewrite /slen; lia.
by rewrite /= size_map size_vslice0 es (minn_idPl rl).
Qed.
(** interpolative decompositions *)
Lemma skel_take n k J : perm_eq J (iota 0 n) -> (k <= n)%N -> skel n k (take k J).
Proof.
move=> pJ kn; have sJ : size J = n by rewrite (perm_size pJ) size_iota.
split; first by rewrite size_takel // sJ.
  by apply: take_uniq; rewrite (perm_uniq pJ) iota_uniq.
by apply/allP=> j /mem_take; rewrite (perm_mem pJ) mem_iota => /andP[].
Qed.

Lemma safe_qrcp l n k (Y : arr T) : X LinAlgError -> (0 < k)%N -> (k <= minn l n)%N -> shaped l n Y ->
  rsafe X (fun XJ => shaped k n XJ.1 /\ skel n k XJ.2) (qrcp_cols L Y k).
Proof using lsh.
move=> xl k0; rewrite leq_min => /andP[kl kn] sY; have [_ _ eY] := sY.
apply: rsafe_bind (lsh_qrp lsh (leq_trans k0 kl) (leq_trans k0 kn) sY) _ => QSJ [_ sS pJ]; cbv zeta.
have sSk : shaped k n (rslice QSJ.1.2 0 k) by apply: (sh_rslice sS); rewrite /slen; lia.
have [_ _ eSk] := sSk; rewrite eSk eY.
have s1 : shaped k k (cslice (rslice QSJ.1.2 0 k) 0 k) by apply: (sh_cslice sSk); rewrite /slen; lia.
have s2 : shaped k (n - k) (cslice (rslice QSJ.1.2 0 k) k n) by apply: (sh_cslice sSk); rewrite /slen; lia.
apply: rsafe_bind (sh_solve false false xl s1 s2) _ => St sSt.
have sE : shaped k k (meye k : arr T) by exact: sh_mk.
apply: rsafe_bind (sh_hstack X sE sSt) _ => V; rewrite subnKC // => sV.
have sJ : size QSJ.2 = n by rewrite (perm_size pJ) size_iota.
have aJ : all (fun j => j < n) QSJ.2 by apply/allP=> j; rewrite (perm_mem pJ) mem_iota => /andP[].
apply: (rsafe_bind (Q := shaped k n)).
  by apply: sh_set_cidx => //; [exact: sh_mk|rewrite sJ].
by move=> Z sZ; split=> //=; exact: skel_take.
Qed.

Lemma safe_row_sketch m n A (c np : int) : (0 <= np)%R -> (0 < c <= (minn m n)%:Z)%R -> shaped m n A ->
  safe X (shaped m (absz c)) (row_sketch (RS1 (skopGA r) np (orth L) 1) A c).
Proof using lsh rok.
move=> np0 c0 sA; rewrite /row_sketch ifF; last by lia.
apply: (safe_bind (Q := shop n (absz c))); first by apply: (safe_RS1 _ _ _ sA); lia.
by move=> _ [S -> sS]; exact: (safe_passA X sA sS).
Qed.

Lemma safe_col_sketch m n A (c np : int) : (0 <= np)%R -> (0 < c <= (minn m n)%:Z)%R -> shaped m n A ->
  safe X (shaped (absz c) n) (col_sketch (RS1 (skopGA r) np (orth L) 1) A c).
Proof using lsh rok.
move=> np0 c0 sA; rewrite /col_sketch ifF; last by lia.
apply: (safe_bind (Q := shop m (absz c))); first by apply: (safe_RS1 _ _ _ (sh_mtr sA)); lia.
by move=> _ [S -> sS]; apply: safe_emit; apply: safe_lift; apply: (sh_mmul X (sh_mtr sS) sA).
Qed.

Lemma safe_qrp_idx l n k (Y : arr T) : (0 < l)%N -> (0 < n)%N -> (k <= n)%N -> shaped l n Y ->
  rsafe X (fun J => skel n k (take k J)) (qrp_idx L Y).
Proof using lsh.
move=> l0 n0 kn sY; apply: rsafe_bind (lsh_qrp lsh l0 n0 sY) _ => QSJ [_ _ pJ]; exact: skel_take.
Qed.

(** Result of a one-sided ID of an m x n array. *)
Section Interp.
Variables (m n k : nat) (over np : int) (A : arr T).
Hypotheses (k0 : (0 < k)%N) (ov : (0 <= over)%R) (kon : (k%:Z + over <= (minn m n)%:Z)%R) (np0 : (0 <= np)%R)
  (sA : shaped m n A).
Local Notation sk := (RS1 (skopGA r) np (orth L) 1).

Lemma safe_ROCS1 (axis : int) : (axis == 0)%R || (axis == 1)%R ->
  safe X (skel (if (axis == 0)%R then m else n) k) (ROCS1 L sk A k over axis).
Proof using lsh rok k0 ov kon np0 sA.
move=> ax; rewrite /ROCS1; case: ifP ax => [/eqP-> _|_ /= ->].
  apply: (safe_bind (Q := shaped m (absz (k%:Z + over)%R))); first by apply: (safe_row_sketch np0 _ sA); lia.
  move=> Y sY; apply: (safe_bind (Q := fun J => skel m k (take k J))).
    by apply: safe_lift; apply: (safe_qrp_idx _ _ _ (sh_mtr sY)); lia.
  by move=> J hJ; apply: safe_ret.
apply: (safe_bind (Q := shaped (absz (k%:Z + over)%R) n)); first by apply: (safe_col_sketch np0 _ sA); lia.
move=> Y sY; apply: (safe_bind (Q := fun J => skel n k (take k J))).
  by apply: safe_lift; apply: (safe_qrp_idx _ _ _ sY); lia.
by move=> J hJ; apply: safe_ret.
Qed.

Lemma safe_OSID1 (axis : int) : X LinAlgError -> (axis == 0)%R || (axis == 1)%R ->
  safe X (osid_shape m n k axis) (OSID1 L sk A k over axis).
Proof using lsh rok k0 ov kon np0 sA.
move=> xl ax; rewrite /OSID1 /osid_shape; case: ifP ax => [/eqP-> _|_ /= ->].
  apply: (safe_bind (Q := shaped m (absz (k%:Z + over)%R))); first by apply: (safe_row_sketch np0 _ sA); lia.
  move=> Y sY; apply: safe_lift; rewrite /qrcp_osid /=.
  apply: (rsafe_bind (safe_qrcp xl k0 _ (sh_mtr sY))); first by lia.
  by move=> XI [s1 s2]; split=> //=; exact: sh_mtr.
apply: (safe_bind (Q := shaped (absz (k%:Z + over)%R) n)); first by apply: (safe_col_sketch np0 _ sA); lia.
move=> Y sY; apply: safe_lift; rewrite /qrcp_osid /=.
by apply: (safe_qrcp xl k0 _ sY); lia.
Qed.

Lemma safe_pinv_left p q (B C : arr T) : (0 < m)%N -> (0 < p)%N -> (0 < q)%N -> shaped m q B -> shaped m p C ->
  rsafe X (shaped p q) (pinv_left L B C).
Proof using lsh. by move=> m0 p0 q0 sB sC; exact: (lsh_lstsq lsh m0 p0 q0 sC sB). Qed.
Lemma safe_pinv_right p q (B C : arr T) : (0 < n)%N -> (0 < p)%N -> (0 < q)%N -> shaped q n B -> shaped p n C ->
  rsafe X (shaped q p) (pinv_right L B C).
Proof using lsh.
move=> n0 p0 q0 sB sC; apply: rsafe_bind (lsh_lstsq lsh n0 p0 q0 (sh_mtr sC) (sh_mtr sB)) _ => Z sZ.
exact: sh_mtr.
Qed.

Lemma safe_OSID2 (axis : int) : (axis == 0)%R || (axis == 1)%R ->
  safe X (osid_shape m n k axis) (OSID2 L sk A k over axis).
Proof using lsh rok k0 ov kon np0 sA.
move=> ax; rewrite /OSID2 /osid_shape; case: ifP ax => [/eqP-> _|_ /= ->].
  apply: (safe_bind (Q := shaped m (absz (k%:Z + over)%R))); first by apply: (safe_row_sketch np0 _ sA); lia.
  move=> Y sY; apply: (safe_bind (Q := fun J => skel m k (take k J))).
    by apply: safe_lift; apply: (safe_qrp_idx _ _ _ (sh_mtr sY)); lia.
  move=> J hJ; cbv zeta; have [eJ _ aJ] := hJ.
  apply: safe_bind (safe_lift (sh_ridx X sA aJ eJ)) _ => AI sAI.
  apply: (safe_bind (Q := shaped m k)); last by move=> Z sZ; apply: safe_ret.
  by apply: safe_emit; apply: safe_lift; apply: (safe_pinv_right _ _ _ sA sAI); lia.
apply: (safe_bind (Q := shaped (absz (k%:Z + over)%R) n)); first by apply: (safe_col_sketch np0 _ sA); lia.
move=> Y sY; apply: (safe_bind (Q := fun J => skel n k (take k J))).
  by apply: safe_lift; apply: (safe_qrp_idx _ _ _ sY); lia.
move=> J hJ; cbv zeta; have [eJ _ aJ] := hJ.
apply: safe_bind (safe_lift (sh_cidx X sA aJ eJ)) _ => AJ sAJ.
apply: (safe_bind (Q := shaped k n)); last by move=> Z sZ; apply: safe_ret.
by apply: safe_emit; apply: safe_lift; apply: (safe_pinv_left _ _ _ sA sAJ); lia.
Qed.

Lemma safe_TSID1 : X LinAlgError -> safe X (tsid_shape m n k) (TSID1 L (OSID1 L sk) A k over).
Proof using lsh rok k0 ov kon np0 sA.
move=> xl; have [_ eA1 eA2] := sA; rewrite /TSID1 eA1 eA2; case: ifP => _.
  apply: safe_bind (safe_OSID1 (axis := 1) xl isT) _ => XJ [s1 hJ]; have [eJ _ aJ] := hJ.
  apply: safe_bind (safe_lift (sh_cidx X sA aJ eJ)) _ => AJ sAJ.
  apply: (safe_bind (Q := fun ZI => shaped m k ZI.1 /\ skel m k ZI.2)).
    apply: safe_lift; rewrite /qrcp_osid /=.
    apply: (rsafe_bind (safe_qrcp xl k0 _ (sh_mtr sAJ))); first by lia.
    by move=> ZI [s2 s3]; split=> //=; exact: sh_mtr.
  by move=> ZI [s2 s3]; apply: safe_ret.
apply: safe_bind (safe_OSID1 (axis := 0) xl isT) _ => ZI [s1 hI]; have [eI _ aI] := hI.
apply: safe_bind (safe_lift (sh_ridx X sA aI eI)) _ => AI sAI.
apply: (safe_bind (Q := fun XJ => shaped k n XJ.1 /\ skel n k XJ.2)).
  by apply: safe_lift; rewrite /qrcp_osid /=; apply: (safe_qrcp xl k0 _ sAI); lia.
by move=> XJ [s2 s3]; apply: safe_ret.
Qed.

Lemma safe_CUR1 : X LinAlgError -> safe X (cur_shape m n k) (CUR1 L (OSID1 L sk) A k over).
Proof using lsh rok k0 ov kon np0 sA.
move=> xl; have [_ eA1 eA2] := sA; rewrite /CUR1 eA1 eA2; case: ifP => _.
  apply: safe_bind (safe_OSID1 (axis := 1) xl isT) _ => XJ [s1 hJ]; have [eJ _ aJ] := hJ.
  apply: safe_bind (safe_lift (sh_cidx X sA aJ eJ)) _ => AJ sAJ.
  apply: (safe_bind (Q := fun J => skel m k (take k J))).
    by apply: safe_lift; apply: (safe_qrp_idx _ _ _ (sh_mtr sAJ)); lia.
  move=> Iv hI; cbv zeta; have [eI _ aI] := hI.
  apply: safe_bind (safe_lift (sh_ridx X sA aI eI)) _ => AI sAI.
  apply: (safe_bind (Q := shaped k k)); last by move=> U sU; apply: safe_ret.
  by apply: safe_lift; apply: (safe_pinv_right _ _ _ s1 sAI); lia.
apply: safe_bind (safe_OSID1 (axis := 0) xl isT) _ => ZI [s1 hI]; have [eI _ aI] := hI.
apply: safe_bind (safe_lift (sh_ridx X sA aI eI)) _ => AI sAI.
apply: (safe_bind (Q := fun J => skel n k (take k J))).
  by apply: safe_lift; apply: (safe_qrp_idx _ _ _ sAI); lia.
move=> J hJ; cbv zeta; have [eJ _ aJ] := hJ.
apply: safe_bind (safe_lift (sh_cidx X sA aJ eJ)) _ => AJ sAJ.
apply: (safe_bind (Q := shaped k k)); last by move=> U sU; apply: safe_ret.
by apply: safe_lift; apply: (safe_pinv_left _ _ _ s1 sAJ); lia.
Qed.
End Interp.
End LowRank.
