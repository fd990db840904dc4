(** Values returned by spherical_harmonics, solid_harmonics and wigner_d. *)
Require Import String List Reals ZArith Bool Lia Lra Permutation ZifyNat.
Require Import Verif.Base Verif.RSum Verif.Common_Model Verif.Common_Spec Verif.Common_Proofs Verif.Common_Enum_Proofs Verif.Common_Props
  Verif.LUT_Model Verif.LUT_Spec Verif.LUT_Props Verif.Symbolic_Model
  Verif.Rotations_Model Verif.Rotations_Spec Verif.Rotations_Props Verif.Poly_Proofs Verif.PolyDiff_Proofs Verif.Harmonics_Basis_Proofs
  Verif.PolyCalc_Proofs Verif.Symbolic_Proofs Verif.Irreps_Model Verif.Irreps_Spec.
Import ListNotations.
Open Scope R_scope.
Open Scope list_scope.
Local Notation key3 := Symbolic_Model.key3.
Local Notation sum_list := Common_Spec.sum_list.

(** * The tables are well formed *)

Lemma rzero_test : zero_test 0 rzero.
Proof. intros a. apply rzero_true. Qed.

Lemma order_inv : forall l m, (Z.abs m <= Z.of_nat l)%Z -> exists i, (i < 2 * l + 1)%nat /\ m = order l i.
Proof. intros l m H. exists (Z.to_nat (m + Z.of_nat l)). unfold order. lia. Qed.

Lemma sph_terms_ok : homogeneous_polynomials R sph_terms.
Proof.
  intros l m H. destruct (order_inv l m H) as [i [Hi ->]].
  destruct (poly3_terms_ok l (Yi l i) (homogeneous_Y l _ (order_bound l i Hi)) (Yi_nonzero l i Hi)) as [A [B _]].
  split; [exact A|exact B].
Qed.

Lemma dot_terms_ok : forall l i j, (i < 2 * l + 1)%nat -> (j < 2 * l + 1)%nat ->
  let T := dot_terms (sph_poly (l, order l j), rotate_xyz_polynomial (sph_poly (l, order l i))) in
  NoDup (map fst T) /\ (forall p v, In (p, v) T -> length p = 9%nat /\ sum_list p = l) /\
  forall M, dmat M l i j = rsum_list (map (fun t => snd t * key9_at M (fst t)) T).
Proof.
  intros l i j Hi Hj. destruct (wigner_product l i j Hi Hj) as [d [E [V H]]].
  destruct (dmat_nonzero l i j Hi Hj) as [M0 HM].
  destruct (poly9_terms_ok l d H (ex_intro _ M0 (eq_rect_r (fun x => x <> 0) HM (V M0)))) as [A [B C]].
  unfold dot_terms, sph_poly. cbn [fst snd]. fold (Yi l i) (Yi l j). rewrite E. split; [exact A|]. split; [exact B|].
  intros M. rewrite <- V. apply C.
Qed.

Lemma wd_terms_ok : homogeneous_products R poly39 sph_poly rotate_xyz_polynomial dot_terms.
Proof.
  intros l m m' H H'. destruct (order_inv l m H) as [i [Hi ->]]. destruct (order_inv l m' H') as [j [Hj ->]].
  destruct (dot_terms_ok l i j Hi Hj) as [A [B _]]. split; [exact A|exact B].
Qed.

(** * Replies after a history *)

Lemma run_last : forall C T load init sch (ext : sch -> nat -> nat -> T -> result T) comp h w L s o,
  snd (run C T load init sch ext comp w (h ++ [Request L s o]))
  = snd (run C T load init sch ext comp w h) ++ [Some (snd (generate C T load init sch ext comp (fst (run C T load init sch ext comp w h)) L s o))].
Proof.
  intros C T load init sch ext comp. induction h as [|e h IH]; intros w L s o.
  - simpl. destruct (generate C T load init sch ext comp w L s o) as [w' r]. reflexivity.
  - simpl. destruct (step C T load init sch ext comp w e) as [w1 r1]. specialize (IH w1 L s o).
    destruct (run C T load init sch ext comp w1 (h ++ [Request L s o])) as [w2 r2].
    destruct (run C T load init sch ext comp w1 h) as [w3 r3]. simpl in *. now rewrite IH.
Qed.

Lemma Forall2_last : forall A B (P : A -> B -> Prop) l a l' b, Forall2 P (l ++ [a]) (l' ++ [b]) -> P a b.
Proof.
  intros A B P l a l' b H. apply Forall2_app_inv_l in H as [x [y [H1 [H2 E]]]]. inversion H2 as [|? c ? y' Hc Hy]; subst. inversion Hy; subst.
  apply app_inj_tail in E as [_ ->]. exact Hc.
Qed.

Lemma sh_ready_reply : forall w L s o, sh_ready w -> call_ok s o ->
  as_cold (same_sh R) (cold_result (sh_generate R 0 rzero sph_terms)) (Request L s o) (Some (snd (spherical_harmonics_table w L s o))).
Proof.
  intros w L s o [w0 [h [Hf [Hh ->]]]] Hc.
  assert (Hh2 : Forall uninterrupted (h ++ [Request L s o])) by (apply Forall_app; split; [exact Hh|constructor; [exact Hc|constructor]]).
  pose proof (C16_spherical_harmonics_history R 0 rzero sph_terms w0 _ rzero_test sph_terms_ok Hf Hh2) as H.
  unfold sh_run in H. rewrite run_last in H. exact (Forall2_last _ _ _ _ _ _ _ H).
Qed.

Lemma wd_ready_reply : forall w L s o, wd_ready w -> call_ok s o ->
  as_cold (same_wd R) (cold_result (wd_generate R 0 rzero poly39 sph_poly rotate_xyz_polynomial dot_terms)) (Request L s o) (Some (snd (wigner_d_table w L s o))).
Proof.
  intros w L s o [w0 [h [Hf [Hh ->]]]] Hc.
  assert (Hh2 : Forall uninterrupted (h ++ [Request L s o])) by (apply Forall_app; split; [exact Hh|constructor; [exact Hc|constructor]]).
  pose proof (C17_wigner_d_history R 0 rzero poly39 sph_poly rotate_xyz_polynomial dot_terms w0 _ rzero_test wd_terms_ok Hf Hh2) as H.
  unfold wd_run in H. rewrite run_last in H. exact (Forall2_last _ _ _ _ _ _ _ H).
Qed.

Lemma cg_ready_reply : forall A (zero : A) is_zero value w L s o, zero_test zero is_zero -> cg_ready A zero is_zero value w -> call_ok s o ->
  as_cold (same_cg A) (cold_result (cg_generate A zero is_zero value)) (Request L s o) (Some (snd (clebsch_gordan_table A zero is_zero value w L s o))).
Proof.
  intros A zero is_zero value w L s o Hz [w0 [h [Hf [Hh ->]]]] Hc.
  assert (Hh2 : Forall uninterrupted (h ++ [Request L s o])) by (apply Forall_app; split; [exact Hh|constructor; [exact Hc|constructor]]).
  pose proof (C15_clebsch_gordan_history A zero is_zero value w0 _ Hz Hf Hh2) as H.
  unfold cg_run in H. rewrite run_last in H. exact (Forall2_last _ _ _ _ _ _ _ H).
Qed.

(** * Sums over the rows of a table *)

Lemma rsum_list_app : forall a b, rsum_list (a ++ b) = rsum_list a + rsum_list b.
Proof. induction a as [|x a IH]; intros b; [unfold rsum_list; simpl; ring|]. unfold rsum_list in *. simpl. rewrite IH. ring. Qed.

Lemma rsum_as_list : forall n f, rsum n f = rsum_list (map f (seq 0 n)).
Proof.
  induction n as [|n IH]; intros f; [reflexivity|]. replace (seq 0 (S n)) with (seq 0 n ++ [n]) by (rewrite <- seq_S; reflexivity).
  rewrite map_app, rsum_list_app, <- IH. unfold rsum_list. simpl. ring.
Qed.

Lemma rsum_list_zero : forall A (f : A -> R) l, (forall a, In a l -> f a = 0) -> rsum_list (map f l) = 0.
Proof.
  intros A f; induction l as [|a l IH]; intros H; [reflexivity|]. unfold rsum_list in *. simpl.
  rewrite IH by (intros; apply H; now right). rewrite H by now left. ring.
Qed.

Lemma coefficient_out : forall (T : list (list nat * R)) p, ~ In p (map fst T) -> coefficient 0 T p = 0.
Proof.
  induction T as [|[q v] T IH]; intros p H; [reflexivity|]. simpl. destruct (list_eq_dec Nat.eq_dec q p) as [->|N].
  - exfalso. apply H. now left.
  - apply IH. intros HI. apply H. now right.
Qed.

Lemma sum_single_in : forall (M : list (list nat)) h q v, NoDup M -> In q M ->
  rsum_list (map (fun p => h p * (if list_eq_dec Nat.eq_dec q p then v else 0)) M) = v * h q.
Proof.
  induction M as [|p M IH]; intros h q v ND HI; [destruct HI|]. inversion ND as [|? ? Hp HM]; subst. destruct HI as [->|HI].
  - change (rsum_list (map ?f (q :: M))) with (f q + rsum_list (map f M)). cbv beta.
    rewrite rsum_list_zero; [destruct (list_eq_dec Nat.eq_dec q q); [ring|congruence]|].
    intros a Ha. destruct (list_eq_dec Nat.eq_dec q a) as [<-|]; [contradiction|ring].
  - change (rsum_list (map ?f (p :: M))) with (f p + rsum_list (map f M)). cbv beta. rewrite IH by assumption.
    destruct (list_eq_dec Nat.eq_dec q p) as [<-|]; [contradiction|ring].
Qed.

Lemma rsum_list_plus : forall A (f g : A -> R) l, rsum_list (map (fun a => f a + g a) l) = rsum_list (map f l) + rsum_list (map g l).
Proof. intros A f g; induction l as [|a l IH]; unfold rsum_list in *; simpl; [ring|]. rewrite IH. ring. Qed.

Lemma sum_coefficient : forall (T : list (list nat * R)) (M : list (list nat)) h, NoDup (map fst T) -> NoDup M -> (forall p, In p (map fst T) -> In p M) ->
  rsum_list (map (fun p => h p * coefficient 0 T p) M) = rsum_list (map (fun t => snd t * h (fst t)) T).
Proof.
  induction T as [|[q v] T IH]; intros M h NT NM Hin.
  - simpl. apply rsum_list_zero. intros. ring.
  - inversion NT as [|? ? Hq HT]; subst. cbn [map fst snd].
    change (rsum_list (v * h q :: ?r)) with (v * h q + rsum_list r).
    rewrite <- (IH M h HT NM) by (intros; apply Hin; now right). rewrite <- (sum_single_in M h q v NM) by (apply Hin; now left).
    rewrite <- rsum_list_plus. f_equal. apply map_ext. intros p. cbn [coefficient]. destruct (list_eq_dec Nat.eq_dec q p) as [<-|]; [|ring].
    rewrite coefficient_out by exact Hq. ring.
Qed.

Lemma nodup_flat_powers : forall (f : nat -> list (list nat)) (deg : list nat -> nat) n s,
  (forall d, NoDup (f d)) -> (forall d p, In p (f d) -> deg p = d) -> NoDup (flat_map f (seq s n)).
Proof.
  intros f deg n; induction n as [|n IH]; intros s H1 H2; [constructor|]. cbn [seq flat_map].
  assert (G : forall a b, NoDup a -> NoDup b -> (forall x : list nat, In x a -> ~ In x b) -> NoDup (a ++ b)).
  { induction a as [|x a IHa]; intros b Ha Hb Hab; [exact Hb|]. inversion Ha; subst. cbn. constructor.
    - rewrite in_app_iff. intros [|]; [contradiction|]. eapply Hab; [left; reflexivity|eassumption].
    - apply IHa; auto. intros y Hy. apply Hab. now right. }
  apply G; auto. intros p Hp Hq. apply in_flat_map in Hq as [d [Hd Hq]]. apply in_seq in Hd.
  apply H2 in Hq. apply H2 in Hp. lia.
Qed.

Lemma car_rows : forall L, let M := flat_map monomial_powers_of_degree (seq 0 (L + 1)) in
  NoDup M /\ forall p, length p = 3%nat -> (sum_list p <= L)%nat -> In p M.
Proof.
  intros L M. split.
  - apply (nodup_flat_powers _ sum_list); [intros; apply C14_monomials_complete|].
    intros d p H. apply C14_monomials_complete in H as [a [b [c [-> <-]]]]. cbn. lia.
  - intros p Hl Hs. apply in_flat_map. exists (sum_list p). split; [apply in_seq; lia|]. apply C14_monomials_complete.
    destruct p as [|a [|b [|c [|]]]]; try discriminate. exists a, b, c. split; [reflexivity|cbn; lia].
Qed.

Lemma sum_list_fold : forall p, fold_right Nat.add 0%nat p = sum_list p.
Proof. induction p; simpl; congruence. Qed.

Lemma rot_rows : forall L, let M := flat_map rotation_matrix_powers_of_degree (seq 0 (L + 1)) in
  NoDup M /\ forall p, length p = 9%nat -> (sum_list p <= L)%nat -> In p M.
Proof.
  intros L M. split.
  - apply (nodup_flat_powers _ sum_list); [intros; apply C14_rotation_monomials_complete|].
    intros d p H. apply C14_rotation_monomials_complete in H as [_ H]. now rewrite sum_list_fold in H.
  - intros p Hl Hs. apply in_flat_map. exists (sum_list p). split; [apply in_seq; lia|]. apply C14_rotation_monomials_complete.
    split; [exact Hl|apply sum_list_fold].
Qed.

Lemma map_seq_ext : forall A (f g : nat -> A) n, (forall i, (i < n)%nat -> f i = g i) -> map f (seq 0 n) = map g (seq 0 n).
Proof. intros A f g n H. apply map_ext_in. intros i Hi. apply in_seq in Hi. apply H. lia. Qed.

(** Row sums: the polynomial with terms T evaluated with [h]. *)
Lemma table_sum : forall n (ls : nat -> list nat) M (cm : nat -> R) T h, map ls (seq 0 n) = M -> NoDup M -> NoDup (map fst T) ->
  (forall p, In p (map fst T) -> In p M) -> (forall i, (i < n)%nat -> cm i = coefficient 0 T (ls i)) ->
  rsum n (fun i => h (ls i) * cm i) = rsum_list (map (fun t => snd t * h (fst t)) T).
Proof.
  intros n ls M cm T h HM ND NT Hin Hc. rewrite (rsum_ext n _ (fun i => h (ls i) * coefficient 0 T (ls i))) by (intros i Hi; now rewrite Hc).
  rewrite rsum_as_list. rewrite <- (map_map ls (fun p => h p * coefficient 0 T p)). rewrite HM. now apply sum_coefficient.
Qed.

Lemma monomial3 : forall L x y z p, length p = 3%nat -> (sum_list p <= L)%nat ->
  monomial L [x; y; z] p = x ^ nth 0 p 0%nat * y ^ nth 1 p 0%nat * z ^ nth 2 p 0%nat.
Proof.
  intros L x y z p Hl Hs. destruct p as [|a [|b [|c [|]]]]; try discriminate. unfold monomial. cbn [combine map fst snd fold_right nth].
  cbn in Hs. rewrite !C14_integer_powers by lia. ring.
Qed.

Lemma monomial9 : forall L M p, length p = 9%nat -> (sum_list p <= L)%nat ->
  monomial L [M 0 0; M 0 1; M 0 2; M 1 0; M 1 1; M 1 2; M 2 0; M 2 1; M 2 2]%nat p = key9_at M p.
Proof.
  intros L M p Hl Hs. destruct (key9_split p Hl) as [a [b [c [d [e [f [g [h [i ->]]]]]]]]]. unfold monomial, key9_at. cbn [combine map fst snd fold_right nth].
  cbn in Hs. rewrite !C14_integer_powers by lia. ring.
Qed.

Lemma rsum_list_ext : forall A (f g : A -> R) l, (forall a, In a l -> f a = g a) -> rsum_list (map f l) = rsum_list (map g l).
Proof. intros. f_equal. now apply map_ext_in. Qed.

Lemma num_sph_sq : forall L, num_sph L = ((L + 1) * (L + 1))%nat.
Proof. intros L. unfold num_sph, total_number_of_spherical_harmonics. cbn. ring. Qed.

(** * The spherical harmonics table *)

Lemma sh_table_value : forall w L s o, sh_ready w -> call_ok s o -> (0 <= L)%Z ->
  exists t, snd (spherical_harmonics_table w L s o) = Ok t /\
  forall x y z l k, (l <= Z.to_nat L)%nat -> (k < 2 * l + 1)%nat ->
    rsum (num_car (Z.to_nat L)) (fun i => monomial (Z.to_nat L) [x; y; z] (sh_ls R t i) * sh_cm R t (i, (l * l + k)%nat)) = peval (Yi l k) (x, y, z).
Proof.
  intros w L s o Hw Hc HL. pose proof (sh_ready_reply w L s o Hw Hc) as H. cbn [as_cold] in H.
  destruct (snd (spherical_harmonics_table w L s o)) as [t|e]; [|destruct H; lia]. exists t. split; [reflexivity|].
  destruct H as [t0 [_ [E [_ [_ [Hcm Hls]]]]]].
  destruct (C16_cold_table R 0 rzero sph_terms L rzero_test sph_terms_ok HL) as [t1 [E1 [_ [HM HC]]]].
  rewrite E in E1. injection E1 as <-. intros x y z l k Hl Hk. set (n := Z.to_nat L) in *.
  destruct (poly3_terms_ok l (Yi l k) (homogeneous_Y l _ (order_bound l k Hk)) (Yi_nonzero l k Hk)) as [A [B C]].
  fold (sph_terms l (order l k)) in *. rewrite C. fold (sph_terms l (order l k)).
  destruct (car_rows n) as [ND Hall].
  rewrite (table_sum (num_car n) (sh_ls R t) (flat_map monomial_powers_of_degree (seq 0 (n + 1))) _ (sph_terms l (order l k)) (monomial n [x; y; z])).
  - apply rsum_list_ext. intros [p v] Hp. cbn [fst snd]. destruct (B _ _ Hp) as [Hp1 Hp2]. rewrite monomial3 by lia. reflexivity.
  - rewrite <- HM. symmetry. apply map_seq_ext. exact Hls.
  - exact ND.
  - exact A.
  - intros p Hp. apply in_map_iff in Hp as [[q v] [<- Hp]]. destruct (B _ _ Hp). apply Hall; cbn [fst]; lia.
  - intros i Hi. rewrite <- Hls, <- Hcm by (assumption || (rewrite num_sph_sq; nia)).
    rewrite <- (HC i l (order l k)) by (assumption || lia || now apply order_bound). do 2 f_equal. unfold order. lia.
Qed.

(** * Normalisation constants *)

Definition const_of (norm : string) (l : nat) : R := match normalization_constant norm l with Ok c => c | Err _ => 0 end.

Lemma normalization_known : forall norm l, known_normalization norm ->
  normalization_constant norm l = Ok (const_of norm l) /\ documented_constant norm l (const_of norm l).
Proof.
  intros norm l [<-|[<-|[<-|[<-|[]]]]]; unfold const_of, normalization_constant; cbn; split; try reflexivity; unfold documented_constant; auto.
Qed.

Lemma normalization_unknown : forall norm l, ~ known_normalization norm -> normalization_constant norm l = Err ValueError.
Proof.
  intros norm l H. unfold normalization_constant, check_normalization_is_valid. destruct (existsb (String.eqb norm) valid_normalizations) eqn:E; [|reflexivity].
  exfalso. apply H. apply existsb_exists in E as [x [Hx E]]. apply String.eqb_eq in E. subst x. unfold valid_normalizations in Hx. unfold known_normalization. cbn in *. intuition congruence.
Qed.

Lemma normalize_columns_ok : forall norm L cm, known_normalization norm -> exists cm', normalize_columns norm L cm = Ok cm' /\
  forall i l k, (l <= L)%nat -> (k < 2 * l + 1)%nat -> cm' (i, (l * l + k)%nat) = cm (i, (l * l + k)%nat) * const_of norm l.
Proof.
  intros norm L cm Hn. unfold normalize_columns. rewrite Nat.add_1_r.
  assert (G : forall n, exists cm', rfold (fun cm l => bind (normalization_constant norm l) (fun c => Ok (multiply_columns (l ^ 2) ((l + 1) ^ 2) c cm))) (seq 0 n) cm = Ok cm' /\
    forall i l k, (k < 2 * l + 1)%nat -> cm' (i, (l * l + k)%nat) = if (l <? n)%nat then cm (i, (l * l + k)%nat) * const_of norm l else cm (i, (l * l + k)%nat)).
  { induction n as [|n [cm' [E IH]]]; [exists cm; split; [reflexivity|intros; reflexivity]|].
    rewrite seq_S. cbn [Nat.add].
    assert (R1 : forall (f : (key2 -> R) -> nat -> result (key2 -> R)) l a c, rfold f (l ++ [a]) c = bind (rfold f l c) (fun c' => f c' a)).
    { intros f l a. induction l as [|b l IHl]; intros c; cbn; [destruct (f c a); reflexivity|]. destruct (f c b); cbn; [apply IHl|reflexivity]. }
    rewrite R1, E. cbn [bind]. destruct (normalization_known norm n Hn) as [-> _]. cbn [bind].
    eexists. split; [reflexivity|]. intros i l k Hk. unfold multiply_columns. cbn [snd]. rewrite IH by exact Hk.
    destruct (Nat.lt_trichotomy l n) as [H|[H|H]].
    - assert (((n ^ 2 <=? l * l + k)%nat && (l * l + k <? (n + 1) ^ 2)%nat)%bool = false) as ->.
      { apply andb_false_iff. left. apply Nat.leb_gt. cbn. nia. }
      rewrite !(proj2 (Nat.ltb_lt _ _)) by lia. reflexivity.
    - subst l. assert (((n ^ 2 <=? n * n + k)%nat && (n * n + k <? (n + 1) ^ 2)%nat)%bool = true) as ->.
      { apply andb_true_iff. split; [apply Nat.leb_le|apply Nat.ltb_lt]; cbn; nia. }
      rewrite Nat.ltb_irrefl, (proj2 (Nat.ltb_lt _ _)) by lia. reflexivity.
    - assert (((n ^ 2 <=? l * l + k)%nat && (l * l + k <? (n + 1) ^ 2)%nat)%bool = false) as ->.
      { apply andb_false_iff. right. apply Nat.ltb_ge. cbn. nia. }
      rewrite !(proj2 (Nat.ltb_ge _ _)) by lia. reflexivity. }
  destruct (G (S L)) as [cm' [E H]]. exists cm'. split; [exact E|]. intros i l k Hl Hk. rewrite H by exact Hk. now rewrite (proj2 (Nat.ltb_lt _ _)) by lia.
Qed.

Lemma normalize_columns_unknown : forall norm L cm, ~ known_normalization norm -> normalize_columns norm L cm = Err ValueError.
Proof. intros norm L cm H. unfold normalize_columns. rewrite Nat.add_1_r. cbn [seq rfold]. rewrite normalization_unknown by exact H. reflexivity. Qed.

(** * Values *)

(** Position of entry k of a degree block in the standard order. *)
Definition pos (cartesian : bool) (l k : nat) : nat := if cartesian then cart_index l k else k.
Lemma pos_lt : forall c l k, (k < 2 * l + 1)%nat -> (pos c l k < 2 * l + 1)%nat.
Proof. intros [] l k H; [apply cart_index_lt; exact H|exact H]. Qed.

Definition row_of (L : nat) (cartesian : bool) (norm : string) (v : vec) (y : list R) : Prop :=
  length y = ((L + 1) * (L + 1))%nat /\
  forall l k, (l <= L)%nat -> (k < 2 * l + 1)%nat -> nth (l * l + k) y 0 = const_of norm l * peval (Yi l (pos cartesian l k)) v.

(** The direction that is evaluated. *)
Definition direction (tiny : R) (v : vec) : vec := if Rlt_dec tiny (length_of (vlist v) ^ 2) then vof (map (fun x => x / length_of (vlist v)) (vlist v)) else v.

Lemma Forall2_map_both : forall A B C (P : B -> C -> Prop) (f : A -> B) (g : A -> C) l, (forall a, In a l -> P (f a) (g a)) -> Forall2 P (map f l) (map g l).
Proof. intros A B C P f g l. induction l as [|a l IH]; intros H; constructor; [apply H; now left|apply IH; intros; apply H; now right]. Qed.

Lemma nth_cols : forall A (f : nat -> A) d cols j, (j < length cols)%nat -> nth j (map f cols) d = f (nth j cols 0%nat).
Proof. intros A f d cols j H. rewrite (nth_indep _ d (f 0%nat)) by (now rewrite map_length). apply map_nth. Qed.

Lemma sph_rows : forall empty L (rs : list vec) cartesian norm ls cm cm',
  (forall i l k, (l <= L)%nat -> (k < 2 * l + 1)%nat -> cm' (i, (l * l + k)%nat) = cm (i, (l * l + k)%nat) * const_of norm l) ->
  (forall x y z l k, (l <= L)%nat -> (k < 2 * l + 1)%nat -> rsum (num_car L) (fun i => monomial L [x; y; z] (ls i) * cm (i, (l * l + k)%nat)) = peval (Yi l k) (x, y, z)) ->
  Forall2 (row_of L cartesian norm) rs (map (combine_monomials L (num_car L) ls cm' (if cartesian then cartesian_permutation empty L else seq 0 ((L + 1) ^ 2))) (map vlist rs)).
Proof.
  intros empty L rs cartesian norm ls cm cm' Hn Hv. rewrite map_map, <- (map_id rs) at 1. apply Forall2_map_both. intros [[x y] z] _. unfold row_of, combine_monomials.
  assert (Hlen : length (if cartesian then cartesian_permutation empty L else seq 0 ((L + 1) ^ 2)) = ((L + 1) * (L + 1))%nat).
  { destruct cartesian; [rewrite (Permutation_length (cart_perm_perm empty L)), seq_length; reflexivity|rewrite seq_length; cbn; ring]. }
  split; [rewrite map_length; exact Hlen|]. intros l k Hl Hk. rewrite nth_cols by (rewrite Hlen; nia).
  assert (E : nth (l * l + k) (if cartesian then cartesian_permutation empty L else seq 0 ((L + 1) ^ 2)) 0%nat = (l * l + pos cartesian l k)%nat).
  { destruct cartesian; [apply cart_perm_nth; assumption|]. rewrite seq_nth by (cbn; nia). reflexivity. }
  rewrite E. rewrite (rsum_ext _ _ (fun i => const_of norm l * (monomial L [x; y; z] (ls i) * cm (i, (l * l + pos cartesian l k)%nat)))).
  - rewrite rsum_scal_l. cbn [vlist]. rewrite Hv by (assumption || now apply pos_lt). reflexivity.
  - intros i _. cbn [vlist]. rewrite Hn by (assumption || now apply pos_lt). ring.
Qed.

Lemma normalize_direction : forall tiny rs, 0 < tiny -> rs <> [] -> normalize tiny (map vlist rs) = Ok (map vlist (map (direction tiny) rs)).
Proof.
  intros tiny rs Ht Hr. destruct (C30_normalize tiny (map vlist rs) Ht) as [y [E [_ [Hl Hy]]]].
  { destruct rs as [|[[a b] c] rs]; [congruence|]. cbn. discriminate. }
  rewrite E. f_equal. apply (nth_ext _ _ [] []); [rewrite Hl, !map_length; reflexivity|]. intros n Hn. rewrite Hl, map_length in Hn.
  specialize (Hy n). rewrite map_length in Hy. specialize (Hy Hn). cbv zeta in Hy.
  rewrite (nth_indep (map vlist rs) [] (vlist (0, 0, 0))) in Hy by (now rewrite map_length). rewrite map_nth in Hy.
  rewrite map_map. rewrite (nth_indep (map (fun x => vlist (direction tiny x)) rs) [] (vlist (direction tiny (0, 0, 0)))) by (now rewrite map_length).
  rewrite (map_nth (fun x => vlist (direction tiny x))). set (v := nth n rs (0, 0, 0)) in *. unfold direction. destruct (Rlt_dec tiny (length_of (vlist v) ^ 2)) as [H|H].
  - destruct Hy as [Hy _]. destruct (Hy H) as [-> _]. destruct v as [[a b] c]. reflexivity.
  - destruct Hy as [_ Hy]. apply Hy. lra.
Qed.

Lemma spherical_ok : forall empty tiny w s o rs L nrm cartesian norm, sh_ready w -> call_ok s o -> (0 <= L)%Z -> known_normalization norm ->
  (nrm = true \/ (0 < tiny /\ rs <> [])) ->
  exists ys, snd (spherical_harmonics empty tiny w s o 3 (map vlist rs) L nrm cartesian norm) = Ok ys /\
    Forall2 (fun v => row_of (Z.to_nat L) cartesian norm (if nrm then v else direction tiny v)) rs ys.
Proof.
  intros empty tiny w s o rs L nrm cartesian norm Hw Hc HL Hn Ht. unfold spherical_harmonics. cbn [Nat.eqb negb].
  unfold check_degree at 1. destruct (L <? 0)%Z eqn:E0; [lia|]. cbv beta iota.
  destruct (sh_table_value w L s o Hw Hc HL) as [t [Et Hv]]. destruct (spherical_harmonics_table w L s o) as [w' r]. cbn [snd] in *. subst r. cbn [bind].
  destruct (normalize_columns_ok norm (Z.to_nat L) (sh_cm R t) Hn) as [cm' [E Hcm]]. rewrite E. cbn [bind].
  assert (G : forall rs', Forall2 (row_of (Z.to_nat L) cartesian norm) rs' (map (combine_monomials (Z.to_nat L) (num_car (Z.to_nat L)) (sh_ls R t) cm'
      (if cartesian then cartesian_permutation empty (Z.to_nat L) else seq 0 ((Z.to_nat L + 1) ^ 2))) (map vlist rs'))).
  { intros rs'. eapply sph_rows; [exact Hcm|exact Hv]. }
  destruct nrm.
  - cbn [bind]. eexists. split; [reflexivity|]. apply G.
  - destruct Ht as [Ht|[Ht Hr]]; [discriminate|]. rewrite normalize_direction by assumption. cbn [bind]. eexists. split; [reflexivity|].
    specialize (G (map (direction tiny) rs)). remember (map (combine_monomials _ _ _ _ _) _) as ys eqn:Ey. clear Ey. clear - G. revert ys G. induction rs as [|v rs IH]; intros ys G; inversion G; subst; constructor; auto.
Qed.
