(** Properties C15-C20: lookup-table caches. *)
Require Import String List ZArith Bool Lia Permutation.
Require Import Verif.Base Verif.Common_Model Verif.Common_Spec Verif.Common_Proofs Verif.Common_Enum_Proofs
  Verif.LUT_Model Verif.LUT_Spec Verif.LUT_Proofs Verif.LUT_CG_Proofs Verif.LUT_Mono_Proofs Verif.LUT_SH_Proofs
  Verif.LUT_WD_Proofs Verif.LUT_TC_Proofs Verif.LUT_Hist_Proofs Verif.LUT_Entry_Proofs.
Import ListNotations.
Open Scope string_scope.

Definition zero_test {A : Type} (zero : A) (is_zero : A -> bool) : Prop := forall a, is_zero a = true <-> a = zero.

(** * C15: Clebsch-Gordan table *)

Lemma cg_same_of_good : forall A zero value L t t', cg_good A zero value L t -> cg_good A zero value L t' -> same_cg A L t t'.
Proof.
  intros A zero value L t t' [H1 H2] [H1' H2']. split; [assumption|]. split; [assumption|].
  intros i j k Hi Hj Hk.
  destruct (lm_index_surj L i Hi) as [l1 [m1 [A1 [B1 ->]]]].
  destruct (lm_index_surj L j Hj) as [l2 [m2 [A2 [B2 ->]]]].
  destruct (lm_index_surj L k Hk) as [l3 [m3 [A3 [B3 ->]]]].
  rewrite H2, H2' by assumption. reflexivity.
Qed.

Lemma cg_degree_of_valid : forall A zero value c d, cg_valid A zero value c d -> d = Z.max (-1) (cgf_max A c).
Proof. intros A zero value c d [[H ->]|[L [-> [H _]]]]; lia. Qed.

(** Every history of requests gets the replies of the cold computation. *)
Theorem C15_clebsch_gordan_history : forall (A : Type) (zero : A) is_zero (value : cg_key -> A) w h,
  zero_test zero is_zero ->
  fresh_install (cg_generate A zero is_zero value) (cg_compress A is_zero) w ->
  Forall uninterrupted h ->
  Forall2 (as_cold (same_cg A) (cold_result (cg_generate A zero is_zero value))) h (snd (cg_run A zero is_zero value w h)).
Proof.
  intros A zero is_zero value w h Hz Hw Hh.
  exact (transparent _ _ _ _ _ _ _ _ _ (cg_valid_deg A zero value) (cg_valid_fun A zero value)
    (cg_load_ok A zero value) (cg_init_ok A zero value) (cg_extend_ok A zero value)
    (cg_compress_ok A zero is_zero Hz value) (same_cg A) (cg_same_of_good A zero value) w h Hw Hh).
Qed.
Print Assumptions C15_clebsch_gordan_history.

(** The cold computation: entry (l1,m1),(l2,m2),(l3,m3) is the coefficient where the selection
    rules allow one, zero elsewhere; negative degrees raise ValueError. *)
Theorem C15_cold_table : forall (A : Type) (zero : A) is_zero (value : cg_key -> A) L,
  zero_test zero is_zero -> (0 <= L)%Z ->
  exists t, cold_result (cg_generate A zero is_zero value) L = Ok t /\ cg_max A t = Z.to_nat L /\
  forall l1 m1 l2 m2 l3 m3,
    (Z.of_nat l1 <= L)%Z -> (Z.of_nat l2 <= L)%Z -> (Z.of_nat l3 <= L)%Z ->
    (Z.abs m1 <= Z.of_nat l1)%Z -> (Z.abs m2 <= Z.of_nat l2)%Z -> (Z.abs m3 <= Z.of_nat l3)%Z ->
    let entry := cg_at A t (Z.to_nat (Z.of_nat (l1 * l1 + l1) + m1), Z.to_nat (Z.of_nat (l2 * l2 + l2) + m2),
                            Z.to_nat (Z.of_nat (l3 * l3 + l3) + m3)) in
    (selected l1 m1 l2 m2 l3 m3 -> entry = value (l1, m1, l2, m2, l3, m3)) /\
    (~ selected l1 m1 l2 m2 l3 m3 -> entry = zero).
Proof.
  intros A zero is_zero value L Hz HL.
  destruct (cold_ok _ _ (cg_load A zero) _ _ (cg_compress A is_zero) _ _ (cg_init_ok A zero value) (cg_extend_ok A zero value) L HL)
    as [t [E [Hm Hg]]].
  exists t. split; [exact E|]. split; [exact Hm|].
  intros l1 m1 l2 m2 l3 m3 A1 A2 A3 B1 B2 B3 entry.
  assert (Ee : entry = cg_entry A zero value l1 m1 l2 m2 l3 m3) by (apply Hg; (assumption || lia)).
  rewrite Ee. unfold cg_entry. destruct (selected_dec l1 m1 l2 m2 l3 m3); tauto.
Qed.
Print Assumptions C15_cold_table.

Theorem C15_cached_degree_never_decreases : forall (A : Type) (zero : A) is_zero (value : cg_key -> A) w h1 h2 p d,
  zero_test zero is_zero ->
  fresh_install (cg_generate A zero is_zero value) (cg_compress A is_zero) w ->
  Forall uninterrupted (h1 ++ h2) ->
  stored_degree (cgf_max A) (fst (cg_run A zero is_zero value w h1)) p = Some d ->
  exists d', stored_degree (cgf_max A) (fst (cg_run A zero is_zero value w (h1 ++ h2))) p = Some d'
    /\ (Z.max (-1) d <= Z.max (-1) d')%Z.
Proof.
  intros A zero is_zero value w h1 h2 p d Hz.
  exact (never_decreases _ _ _ _ _ _ _ _ _ (cg_valid_deg A zero value) (cg_valid_fun A zero value)
    (cg_load_ok A zero value) (cg_init_ok A zero value) (cg_extend_ok A zero value)
    (cg_compress_ok A zero is_zero Hz value) (cgf_max A) (cg_degree_of_valid A zero value) w h1 h2 p d).
Qed.
Print Assumptions C15_cached_degree_never_decreases.

(** A history with a growing cache, a pool finishing in reverse order and a smaller request. *)
Definition reversed : schedule := Some (fun n => rev (seq 0 n)).
Lemma reversed_valid : valid_schedule reversed.
Proof. intros n. apply Permutation_sym, Permutation_rev. Qed.

Definition toy_value (k : cg_key) : Z :=
  let '(l1, m1, l2, m2, l3, m3) := k in (1 + Z.of_nat (l1 + 2 * l2 + 3 * l3) + m1 + m2 - m3)%Z.
Definition toy_history : list (event schedule) :=
  [SetPath (Some "cg.npz"); Request 1 reversed IoOk; Request 0 None IoOk; Request (-1) None IoOk;
   Request 2 reversed IoOk; SetPath None; Request 1 None IoOpenFails].

Example C15_example :
  zero_test 0%Z (Z.eqb 0) /\ Forall uninterrupted toy_history /\
  fresh_install (cg_generate Z 0%Z (Z.eqb 0) toy_value) (cg_compress Z (Z.eqb 0)) empty_world /\
  (let '(w, rs) := cg_run Z 0%Z (Z.eqb 0) toy_value empty_world toy_history in
   stored_degree (cgf_max Z) w "cg.npz" = Some 2%Z /\
   map (fun r => match r with Some (Ok t) => Some (cg_max Z t, if (cg_max Z t =? 0)%nat then 0%Z else cg_at Z t (1, 2, 3), cg_at Z t (0, 0, 0)) | _ => None end) rs
   = [None; Some (1%nat, 5, 1); Some (0%nat, 0, 1); None; Some (2%nat, 5, 1); None; Some (1%nat, 5, 1)]%Z).
Proof.
  split; [intros a; destruct (Z.eqb_spec 0 a); split; intros; congruence|]. split.
  - unfold toy_history. repeat apply Forall_cons; try apply Forall_nil; simpl; auto using reversed_valid.
    all: split; [exact reversed_valid|auto].
  - split; [split; [reflexivity|left; exists OSError; simpl; auto]|]. vm_compute. auto.
Qed.

(** * C16: spherical harmonics coefficients *)

Section C16.
Variable A : Type.
Variable zero : A.
Variable is_zero : A -> bool.
Variable sph_terms : nat -> Z -> list (list nat * A).

(** Assumption on the symbolic polynomial of degree l, order m: homogeneous of degree l in
    three variables, each monomial listed once. *)
Definition homogeneous_polynomials : Prop := forall l m, (Z.abs m <= Z.of_nat l)%Z ->
  NoDup (map fst (sph_terms l m)) /\
  forall p v, In (p, v) (sph_terms l m) -> length p = 3 /\ sum_list p = l.

Lemma sh_same_of_good : forall L t t', sh_good A zero sph_terms L t -> sh_good A zero sph_terms L t' -> same_sh A L t t'.
Proof.
  intros L t t' [H1 [H2 H3]] [H1' [H2' H3']]. split; [assumption|]. split; [assumption|]. split.
  - intros i j Hi Hj.
    assert (Hq : sh_inside L (i, j) = true) by (rewrite sh_inside_iff; apply in2_iff; auto).
    now rewrite H2, H2'.
  - intros i Hi. rewrite num_car_rowstart in Hi. now rewrite H3, H3'.
Qed.

Lemma sh_degree_of_valid : forall c d, sh_valid A zero sph_terms c d -> d = Z.max (-1) (shf_max A c).
Proof. intros c d [[H ->]|[L [-> [H _]]]]; lia. Qed.

Lemma hp1 : homogeneous_polynomials -> forall l m p v, (Z.abs m <= Z.of_nat l)%Z -> In (p, v) (sph_terms l m) ->
  length p = 3 /\ sum_list p = l.
Proof. intros H l m p v Hm Hp. destruct (H l m Hm) as [_ G]. now apply G with v. Qed.
Lemma hp2 : homogeneous_polynomials -> forall l m, (Z.abs m <= Z.of_nat l)%Z -> NoDup (map fst (sph_terms l m)).
Proof. intros H l m Hm. now destruct (H l m Hm). Qed.

Lemma sh_cold_good : zero_test zero is_zero -> homogeneous_polynomials -> forall L, (0 <= L)%Z ->
  exists t, cold_result (sh_generate A zero is_zero sph_terms) L = Ok t /\ sh_good A zero sph_terms (Z.to_nat L) t.
Proof.
  intros Hz Hp L HL.
  exact (cold_ok _ _ (sh_load A zero) _ _ (sh_compress A is_zero) _ _ (sh_init_ok A zero is_zero Hz sph_terms (hp1 Hp) (hp2 Hp))
    (sh_extend_ok A zero is_zero Hz sph_terms (hp1 Hp) (hp2 Hp)) L HL).
Qed.

Lemma sh_cold_entry : zero_test zero is_zero -> homogeneous_polynomials -> forall L i l m, i < num_car L -> l <= L -> (Z.abs m <= Z.of_nat l)%Z ->
  LUT_SH_Proofs.sh_cold A zero sph_terms L (i, lm_index l m)
  = coefficient zero (sph_terms l m) (nth i (monos monomial_powers_of_degree (L + 1)) []).
Proof.
  intros Hz Hp L i l m Hi Hl Hm. rewrite num_car_rowstart in Hi.
  destruct (row_nth _ mono_nodup mono_sum (L + 1) i Hi) as [l' [Hl' [Hin Hrow]]].
  set (p := nth i (monos monomial_powers_of_degree (L + 1)) []) in *.
  assert (Hc : In (lm_index l m, sph_terms l m) (sh_cols A sph_terms l)) by (apply (in_sh_cols A zero is_zero Hz sph_terms (hp1 Hp) (hp2 Hp)); exists m; auto).
  pose proof (sh_terms_ok A zero is_zero Hz sph_terms (hp1 Hp) (hp2 Hp)) as T1. pose proof (sh_terms_nodup A zero is_zero Hz sph_terms (hp1 Hp) (hp2 Hp)) as T2.
  rewrite <- Hrow at 1. unfold LUT_SH_Proofs.sh_cold.
  destruct (in_terms_dec A (sph_terms l m) p) as [[v Hv]|Hn].
  - rewrite (coefficient_in A zero (sph_terms l m) p v) by (assumption || now apply (hp2 Hp)).
    exact (cold_entry A zero _ mono_nodup mono_sum (sh_cols A sph_terms) sq sq_mono (sh_cols_bounds A zero is_zero Hz sph_terms (hp1 Hp) (hp2 Hp))
      (sh_cols_nodup A zero is_zero Hz sph_terms (hp1 Hp) (hp2 Hp)) T1 T2 L l (lm_index l m) (sph_terms l m) p v Hl Hc Hv).
  - rewrite (coefficient_out A zero (sph_terms l m) p) by assumption.
    exact (cold_absent A zero _ mono_nodup mono_sum (sh_cols A sph_terms) sq sq_mono (sh_cols_bounds A zero is_zero Hz sph_terms (hp1 Hp) (hp2 Hp))
      (sh_cols_nodup A zero is_zero Hz sph_terms (hp1 Hp) (hp2 Hp)) T1 T2 L l (lm_index l m) (sph_terms l m) l' p Hl Hc Hin Hn).
Qed.
End C16.

Theorem C16_spherical_harmonics_history : forall (A : Type) (zero : A) is_zero sph_terms w h,
  zero_test zero is_zero -> homogeneous_polynomials A sph_terms ->
  fresh_install (sh_generate A zero is_zero sph_terms) (sh_compress A is_zero) w ->
  Forall uninterrupted h ->
  Forall2 (as_cold (same_sh A) (cold_result (sh_generate A zero is_zero sph_terms))) h (snd (sh_run A zero is_zero sph_terms w h)).
Proof.
  intros A zero is_zero st w h Hz Hp Hw Hh.
  exact (transparent _ _ _ _ _ _ _ _ _ (sh_valid_deg A zero is_zero Hz st (hp1 A st Hp) (hp2 A st Hp)) (sh_valid_fun A zero is_zero Hz st (hp1 A st Hp) (hp2 A st Hp))
    (sh_load_ok A zero is_zero Hz st (hp1 A st Hp) (hp2 A st Hp)) (sh_init_ok A zero is_zero Hz st (hp1 A st Hp) (hp2 A st Hp))
    (sh_extend_ok A zero is_zero Hz st (hp1 A st Hp) (hp2 A st Hp))
    (sh_compress_ok A zero is_zero Hz st) (same_sh A) (sh_same_of_good A zero st) w h Hw Hh).
Qed.
Print Assumptions C16_spherical_harmonics_history.

(** The cold table: row i belongs to the monomial with powers [sh_ls t i]; the rows are the
    monomials of degree 0, 1, ..., L; the entry in column l*l+l+m is the coefficient of that monomial in Y_l^m. *)
Theorem C16_cold_table : forall (A : Type) (zero : A) is_zero sph_terms L,
  zero_test zero is_zero -> homogeneous_polynomials A sph_terms -> (0 <= L)%Z ->
  exists t, cold_result (sh_generate A zero is_zero sph_terms) L = Ok t /\ sh_max A t = Z.to_nat L /\
  map (sh_ls A t) (seq 0 (num_car (Z.to_nat L))) = flat_map monomial_powers_of_degree (seq 0 (Z.to_nat L + 1)) /\
  forall i l m, i < num_car (Z.to_nat L) -> (Z.of_nat l <= L)%Z -> (Z.abs m <= Z.of_nat l)%Z ->
    sh_cm A t (i, Z.to_nat (Z.of_nat (l * l + l) + m)) = coefficient zero (sph_terms l m) (sh_ls A t i).
Proof.
  intros A zero is_zero st L Hz Hp HL.
  destruct (sh_cold_good A zero is_zero st Hz Hp L HL) as [t [E [Hm [Hc Hl]]]].
  exists t. split; [exact E|]. split; [exact Hm|]. split.
  - set (M := flat_map monomial_powers_of_degree (seq 0 (Z.to_nat L + 1))).
    assert (HM : length M = num_car (Z.to_nat L)).
    { rewrite num_car_rowstart. pose proof (length_flat_powers monomial_powers_of_degree (Z.to_nat L + 1) 0) as H.
      unfold rowstart at 1 in H. simpl in H. unfold M. lia. }
    rewrite <- HM. rewrite <- (firstn_all M) at 2. rewrite (firstn_map_nth _ M []) by lia.
    apply map_ext_in. intros i Hi. apply in_seq in Hi. apply Hl. rewrite <- num_car_rowstart. lia.
  - intros i l m Hi Hl' Hm'. rewrite Hl by (rewrite <- num_car_rowstart; assumption).
    rewrite Hc.
    + apply (sh_cold_entry A zero is_zero st Hz Hp); (assumption || lia).
    + rewrite sh_inside_iff. apply in2_iff. split; [assumption|]. apply (lm_index_bound l m (Z.to_nat L)); [lia|assumption].
Qed.
Print Assumptions C16_cold_table.

(** Smaller tables are prefixes of larger ones. *)
Theorem C16_prefix : forall (A : Type) (zero : A) is_zero sph_terms L L' t t',
  zero_test zero is_zero -> homogeneous_polynomials A sph_terms -> (L <= L')%Z ->
  cold_result (sh_generate A zero is_zero sph_terms) L = Ok t ->
  cold_result (sh_generate A zero is_zero sph_terms) L' = Ok t' ->
  (forall i j, i < num_car (Z.to_nat L) -> j < num_sph (Z.to_nat L) -> sh_cm A t (i, j) = sh_cm A t' (i, j)) /\
  (forall i, i < num_car (Z.to_nat L) -> sh_ls A t i = sh_ls A t' i).
Proof.
  intros A zero is_zero st L L' t t' Hz Hp HLL E E'.
  destruct (cold_Ok _ _ (sh_load A zero) _ _ (sh_compress A is_zero) _ _ (sh_init_ok A zero is_zero Hz st (hp1 A st Hp) (hp2 A st Hp))
    (sh_extend_ok A zero is_zero Hz st (hp1 A st Hp) (hp2 A st Hp)) L t E) as [HL [_ [Hc Hl]]].
  destruct (cold_Ok _ _ (sh_load A zero) _ _ (sh_compress A is_zero) _ _ (sh_init_ok A zero is_zero Hz st (hp1 A st Hp) (hp2 A st Hp))
    (sh_extend_ok A zero is_zero Hz st (hp1 A st Hp) (hp2 A st Hp)) L' t' E') as [HL' [_ [Hc' Hl']]].
  split.
  - intros i j Hi Hj.
    assert (Hq : sh_inside (Z.to_nat L) (i, j) = true) by (rewrite sh_inside_iff; apply in2_iff; auto).
    rewrite Hc by assumption. rewrite Hc' by (apply sh_inside_mono with (Z.to_nat L); [lia|assumption]).
    symmetry. apply (sh_cold_restrict A zero is_zero Hz st (hp1 A st Hp) (hp2 A st Hp)); [lia|assumption].
  - intros i Hi. rewrite num_car_rowstart in Hi.
    pose proof (rowstart_mono monomial_powers_of_degree (Z.to_nat L + 1) (Z.to_nat L' + 1) ltac:(lia)).
    rewrite Hl, Hl' by lia. apply monos_prefix; [lia|assumption].
Qed.
Print Assumptions C16_prefix.

Theorem C16_cached_degree_never_decreases : forall (A : Type) (zero : A) is_zero sph_terms w h1 h2 p d,
  zero_test zero is_zero -> homogeneous_polynomials A sph_terms ->
  fresh_install (sh_generate A zero is_zero sph_terms) (sh_compress A is_zero) w ->
  Forall uninterrupted (h1 ++ h2) ->
  stored_degree (shf_max A) (fst (sh_run A zero is_zero sph_terms w h1)) p = Some d ->
  exists d', stored_degree (shf_max A) (fst (sh_run A zero is_zero sph_terms w (h1 ++ h2))) p = Some d'
    /\ (Z.max (-1) d <= Z.max (-1) d')%Z.
Proof.
  intros A zero is_zero st w h1 h2 p d Hz Hp.
  exact (never_decreases _ _ _ _ _ _ _ _ _ (sh_valid_deg A zero is_zero Hz st (hp1 A st Hp) (hp2 A st Hp)) (sh_valid_fun A zero is_zero Hz st (hp1 A st Hp) (hp2 A st Hp))
    (sh_load_ok A zero is_zero Hz st (hp1 A st Hp) (hp2 A st Hp)) (sh_init_ok A zero is_zero Hz st (hp1 A st Hp) (hp2 A st Hp))
    (sh_extend_ok A zero is_zero Hz st (hp1 A st Hp) (hp2 A st Hp))
    (sh_compress_ok A zero is_zero Hz st) (shf_max A) (sh_degree_of_valid A zero is_zero st) w h1 h2 p d).
Qed.
Print Assumptions C16_cached_degree_never_decreases.

Definition toy_terms (l : nat) (m : Z) : list (list nat * Z) :=
  match l with O => [([0; 0; 0], 7%Z)] | S k => [([0; 0; l], (5 + m)%Z); ([1; k; 0], 3%Z)] end.

Example C16_example :
  homogeneous_polynomials Z toy_terms /\
  fresh_install (sh_generate Z 0%Z (Z.eqb 0) toy_terms) (sh_compress Z (Z.eqb 0)) empty_world /\
  (let '(w, rs) := sh_run Z 0%Z (Z.eqb 0) toy_terms empty_world toy_history in
   stored_degree (shf_max Z) w "cg.npz" = Some 2%Z /\
   map (fun r => match r with Some (Ok t) => Some (if (sh_max Z t =? 0)%nat then (0%Z, []) else (sh_cm Z t (1, 1), sh_ls Z t 1)) | _ => None end) rs
   = [None; Some (4%Z, [0; 0; 1]); Some (0%Z, []); None; Some (4%Z, [0; 0; 1]); None; Some (4%Z, [0; 0; 1])]).
Proof.
  split; [|split; [split; [reflexivity|left; exists OSError; simpl; auto]|vm_compute; auto]].
  intros l m Hm. destruct l as [|k]; simpl; split.
  - repeat constructor. intros [].
  - intros p v [E|[]]. injection E as <- <-. auto.
  - repeat constructor; [|intros []]. intros [E|[]]. injection E as E1 E2. discriminate.
  - intros p v [E|[E|[]]]; injection E as <- <-; simpl; split; auto; lia.
Qed.

(** * C17: Wigner-D coefficients *)

Section C17.
Variable A : Type.
Variable zero : A.
Variable is_zero : A -> bool.
Variable poly : Type.
Variable sph_poly : nat * Z -> poly.
Variable rotate_poly : poly -> poly.
Variable dot_terms : poly * poly -> list (list nat * A).

(** Assumption on the symbolic inner products of degree l: homogeneous of degree l in the nine
    entries of the rotation matrix, each monomial listed once. *)
Definition homogeneous_products : Prop := forall l mrot msph,
  (Z.abs mrot <= Z.of_nat l)%Z -> (Z.abs msph <= Z.of_nat l)%Z ->
  NoDup (map fst (dot_terms (sph_poly (l, msph), rotate_poly (sph_poly (l, mrot))))) /\
  forall p v, In (p, v) (dot_terms (sph_poly (l, msph), rotate_poly (sph_poly (l, mrot)))) -> length p = 9 /\ sum_list p = l.

Local Notation good := (wd_good A zero poly sph_poly rotate_poly dot_terms).

Lemma wd_same_of_good : forall L t t', good L t -> good L t' -> same_wd A L t t'.
Proof.
  intros L t t' [H1 [H2 H3]] [H1' [H2' H3']]. split; [assumption|]. split; [assumption|]. split.
  - intros i j Hi Hj.
    assert (Hq : wd_inside L (i, j) = true) by (rewrite wd_inside_iff; apply in2_iff; auto).
    now rewrite H2, H2'.
  - intros i Hi. rewrite num_rot_rowstart in Hi. now rewrite H3, H3'.
Qed.

Lemma wd_degree_of_valid : forall c d, wd_valid A zero poly sph_poly rotate_poly dot_terms c d -> d = Z.max (-1) (wdf_max A c).
Proof. intros c d [[H ->]|[L [-> [H _]]]]; lia. Qed.

Lemma wh1 : homogeneous_products -> forall l mrot msph p v,
  (Z.abs mrot <= Z.of_nat l)%Z -> (Z.abs msph <= Z.of_nat l)%Z ->
  In (p, v) (wterms A poly sph_poly rotate_poly dot_terms l mrot msph) -> length p = 9 /\ sum_list p = l.
Proof. intros H l a b p v Ha Hb Hp. destruct (H l a b Ha Hb) as [_ G]. now apply G with v. Qed.
Lemma wh2 : homogeneous_products -> forall l mrot msph, (Z.abs mrot <= Z.of_nat l)%Z -> (Z.abs msph <= Z.of_nat l)%Z ->
  NoDup (map fst (wterms A poly sph_poly rotate_poly dot_terms l mrot msph)).
Proof. intros H l a b Ha Hb. now destruct (H l a b Ha Hb). Qed.

Lemma wd_cold_entry : zero_test zero is_zero -> homogeneous_products -> forall L i l a b, i < num_rot L -> l <= L ->
  (Z.abs a <= Z.of_nat l)%Z -> (Z.abs b <= Z.of_nat l)%Z ->
  wd_cold A zero poly sph_poly rotate_poly dot_terms L (i, wigner_column l a b)
  = coefficient zero (wterms A poly sph_poly rotate_poly dot_terms l a b) (nth i (monos rpow (L + 1)) []).
Proof.
  intros Hz Hp L i l a b Hi Hl Ha Hb. rewrite num_rot_rowstart in Hi.
  destruct (row_nth _ rpow_nodup rpow_sum (L + 1) i Hi) as [l' [Hl' [Hin Hrow]]].
  set (p := nth i (monos rpow (L + 1)) []) in *.
  pose proof (in_wcols A poly sph_poly rotate_poly dot_terms l a b Ha Hb) as Hc.
  pose proof (wterms_ok A poly sph_poly rotate_poly dot_terms (wh1 Hp)) as T1.
  pose proof (wterms_nodup A poly sph_poly rotate_poly dot_terms (wh2 Hp)) as T2.
  set (terms := wterms A poly sph_poly rotate_poly dot_terms l a b) in *.
  rewrite <- Hrow at 1. unfold wd_cold.
  destruct (in_terms_dec A terms p) as [[v Hv]|Hn].
  - rewrite (coefficient_in A zero terms p v) by (assumption || now apply (wh2 Hp)).
    exact (cold_entry A zero _ rpow_nodup rpow_sum _ wc wc_mono (wcols_bounds A zero is_zero Hz poly sph_poly rotate_poly dot_terms (wh1 Hp) (wh2 Hp))
      (wcols_nodup A poly sph_poly rotate_poly dot_terms) T1 T2 L l _ terms p v Hl Hc Hv).
  - rewrite (coefficient_out A zero terms p) by assumption.
    exact (cold_absent A zero _ rpow_nodup rpow_sum _ wc wc_mono (wcols_bounds A zero is_zero Hz poly sph_poly rotate_poly dot_terms (wh1 Hp) (wh2 Hp))
      (wcols_nodup A poly sph_poly rotate_poly dot_terms) T1 T2 L l _ terms l' p Hl Hc Hin Hn).
Qed.
End C17.

Theorem C17_wigner_d_history : forall (A : Type) (zero : A) is_zero poly sph_poly rotate_poly dot_terms w h,
  zero_test zero is_zero -> homogeneous_products A poly sph_poly rotate_poly dot_terms ->
  fresh_install (wd_generate A zero is_zero poly sph_poly rotate_poly dot_terms) (wd_compress A is_zero) w ->
  Forall uninterrupted h ->
  Forall2 (as_cold (same_wd A) (cold_result (wd_generate A zero is_zero poly sph_poly rotate_poly dot_terms))) h
    (snd (wd_run A zero is_zero poly sph_poly rotate_poly dot_terms w h)).
Proof.
  intros A zero is_zero poly sp ro dt w h Hz Hp Hw Hh.
  exact (transparent _ _ _ _ _ _ _ _ _ (wd_valid_deg A zero is_zero Hz poly sp ro dt (wh1 A poly sp ro dt Hp) (wh2 A poly sp ro dt Hp)) (wd_valid_fun A zero is_zero Hz poly sp ro dt (wh1 A poly sp ro dt Hp) (wh2 A poly sp ro dt Hp))
    (wd_load_ok A zero is_zero Hz poly sp ro dt (wh1 A poly sp ro dt Hp) (wh2 A poly sp ro dt Hp)) (wd_init_ok A zero is_zero Hz poly sp ro dt (wh1 A poly sp ro dt Hp) (wh2 A poly sp ro dt Hp))
    (wd_extend_ok A zero is_zero Hz poly sp ro dt (wh1 A poly sp ro dt Hp) (wh2 A poly sp ro dt Hp))
    (wd_compress_ok A zero is_zero Hz poly sp ro dt (wh1 A poly sp ro dt Hp) (wh2 A poly sp ro dt Hp)) (same_wd A) (wd_same_of_good A zero poly sp ro dt) w h Hw Hh).
Qed.
Print Assumptions C17_wigner_d_history.

(** Rows: monomials of degree 0..L in the nine matrix entries.  Column of (l, mrot, msph): the
    coefficients of <Y_l^msph, rotated Y_l^mrot>.  So the table is block diagonal: a row of degree
    k has zeros in the columns of every degree l <> k. *)
Theorem C17_cold_table : forall (A : Type) (zero : A) is_zero poly sph_poly rotate_poly dot_terms L,
  zero_test zero is_zero -> homogeneous_products A poly sph_poly rotate_poly dot_terms -> (0 <= L)%Z ->
  exists t, cold_result (wd_generate A zero is_zero poly sph_poly rotate_poly dot_terms) L = Ok t /\ wd_max A t = Z.to_nat L /\
  map (wd_ls A t) (seq 0 (num_rot (Z.to_nat L))) = flat_map rotation_matrix_powers_of_degree (seq 0 (Z.to_nat L + 1)) /\
  forall i l mrot msph, i < num_rot (Z.to_nat L) -> (Z.of_nat l <= L)%Z ->
    (Z.abs mrot <= Z.of_nat l)%Z -> (Z.abs msph <= Z.of_nat l)%Z ->
    wd_cm A t (i, wigner_column l mrot msph)
    = coefficient zero (dot_terms (sph_poly (l, msph), rotate_poly (sph_poly (l, mrot)))) (wd_ls A t i) /\
    (sum_list (wd_ls A t i) <> l -> wd_cm A t (i, wigner_column l mrot msph) = zero).
Proof.
  intros A zero is_zero poly sp ro dt L Hz Hp HL.
  destruct (cold_ok _ _ (wd_load A zero) _ _ (wd_compress A is_zero) _ _ (wd_init_ok A zero is_zero Hz poly sp ro dt (wh1 A poly sp ro dt Hp) (wh2 A poly sp ro dt Hp))
    (wd_extend_ok A zero is_zero Hz poly sp ro dt (wh1 A poly sp ro dt Hp) (wh2 A poly sp ro dt Hp)) L HL) as [t [E [Hm [Hc Hl]]]].
  exists t. split; [exact E|]. split; [exact Hm|]. split.
  - set (M := flat_map rotation_matrix_powers_of_degree (seq 0 (Z.to_nat L + 1))).
    assert (HM : length M = num_rot (Z.to_nat L)).
    { rewrite num_rot_rowstart. pose proof (length_flat_powers rpow (Z.to_nat L + 1) 0) as H.
      unfold rowstart at 1 in H. simpl in H. unfold M. lia. }
    rewrite <- HM. rewrite <- (firstn_all M) at 2. rewrite (firstn_map_nth _ M []) by lia.
    apply map_ext_in. intros i Hi. apply in_seq in Hi. apply Hl. rewrite <- num_rot_rowstart. lia.
  - intros i l a b Hi Hl' Ha Hb.
    assert (Ecm : wd_cm A t (i, wigner_column l a b)
      = coefficient zero (dt (sp (l, b), ro (sp (l, a)))) (wd_ls A t i)).
    { rewrite Hl by (rewrite <- num_rot_rowstart; assumption). rewrite Hc.
      + apply (wd_cold_entry A zero is_zero poly sp ro dt Hz Hp); (assumption || lia).
      + rewrite wd_inside_iff. apply in2_iff. split; [assumption|].
        pose proof (in_wcols A poly sp ro dt l a b Ha Hb) as B. apply (wcols_bounds A zero is_zero Hz poly sp ro dt (wh1 A poly sp ro dt Hp) (wh2 A poly sp ro dt Hp)) in B.
        pose proof (wc_mono (l + 1) (Z.to_nat L + 1) ltac:(lia)). rewrite num_wig_wc. simpl. lia. }
    split; [exact Ecm|]. intros Hne. rewrite Ecm. apply coefficient_out. intros v Hv.
    destruct (Hp l a b Ha Hb) as [_ G]. apply Hne. now apply (G _ v).
Qed.
Print Assumptions C17_cold_table.

Theorem C17_cached_degree_never_decreases : forall (A : Type) (zero : A) is_zero poly sph_poly rotate_poly dot_terms w h1 h2 p d,
  zero_test zero is_zero -> homogeneous_products A poly sph_poly rotate_poly dot_terms ->
  fresh_install (wd_generate A zero is_zero poly sph_poly rotate_poly dot_terms) (wd_compress A is_zero) w ->
  Forall uninterrupted (h1 ++ h2) ->
  stored_degree (wdf_max A) (fst (wd_run A zero is_zero poly sph_poly rotate_poly dot_terms w h1)) p = Some d ->
  exists d', stored_degree (wdf_max A) (fst (wd_run A zero is_zero poly sph_poly rotate_poly dot_terms w (h1 ++ h2))) p = Some d'
    /\ (Z.max (-1) d <= Z.max (-1) d')%Z.
Proof.
  intros A zero is_zero poly sp ro dt w h1 h2 p d Hz Hp.
  exact (never_decreases _ _ _ _ _ _ _ _ _ (wd_valid_deg A zero is_zero Hz poly sp ro dt (wh1 A poly sp ro dt Hp) (wh2 A poly sp ro dt Hp)) (wd_valid_fun A zero is_zero Hz poly sp ro dt (wh1 A poly sp ro dt Hp) (wh2 A poly sp ro dt Hp))
    (wd_load_ok A zero is_zero Hz poly sp ro dt (wh1 A poly sp ro dt Hp) (wh2 A poly sp ro dt Hp)) (wd_init_ok A zero is_zero Hz poly sp ro dt (wh1 A poly sp ro dt Hp) (wh2 A poly sp ro dt Hp))
    (wd_extend_ok A zero is_zero Hz poly sp ro dt (wh1 A poly sp ro dt Hp) (wh2 A poly sp ro dt Hp))
    (wd_compress_ok A zero is_zero Hz poly sp ro dt (wh1 A poly sp ro dt Hp) (wh2 A poly sp ro dt Hp)) (wdf_max A) (wd_degree_of_valid A zero is_zero poly sp ro dt) w h1 h2 p d).
Qed.
Print Assumptions C17_cached_degree_never_decreases.

(** Toy polynomials: the pair (l, m) itself. *)
Definition toy_dot (ab : (nat * Z) * (nat * Z)) : list (list nat * Z) :=
  let '((l, m), (_, m')) := ab in [([l; 0; 0; 0; 0; 0; 0; 0; 0], (10 + 3 * m + m')%Z)].

Example C17_example :
  homogeneous_products Z (nat * Z) (fun lm => lm) (fun p => p) toy_dot /\
  (let '(w, rs) := wd_run Z 0%Z (Z.eqb 0) (nat * Z) (fun lm => lm) (fun p => p) toy_dot empty_world
        [SetPath (Some "wd.npz"); Request 0 None IoOk; Request 1 reversed IoOk; Request 1 None IoOk] in
   stored_degree (wdf_max Z) w "wd.npz" = Some 1%Z /\
   map (fun r => match r with Some (Ok t) => Some (if (wd_max Z t =? 0)%nat then 0%Z else wd_cm Z t (9, 1), wd_cm Z t (0, 0)) | _ => None end) rs
   = [None; Some (0, 10); Some (6, 10); Some (6, 10)]%Z).
Proof.
  split; [|vm_compute; auto].
  intros l a b Ha Hb. simpl. split; [repeat constructor; intros []|].
  intros p v [E|[]]. injection E as <- <-. split; [reflexivity|]. simpl. lia.
Qed.

(** * C18: tensor conversion matrices *)

Lemma tc_same_of_good : forall M conv L t t', tc_good M conv L t -> tc_good M conv L t' -> same_tc M L t t'.
Proof.
  intros M conv L t t' [H1 [H2 H3]] [H1' [H2' H3']]. unfold same_tc. rewrite H2, H3, H2', H3'.
  rewrite !map_length, !seq_length. auto 7.
Qed.

Theorem C18_tensor_conversion_history : forall (M : Type) (conversion_matrices : nat -> M * M) w h,
  fresh_install (tc_generate M conversion_matrices) (tc_unpack M) w -> Forall uninterrupted h ->
  Forall2 (as_cold (same_tc M) (cold_result (tc_generate M conversion_matrices))) h (snd (tc_run M conversion_matrices w h)).
Proof.
  intros M conv w h Hw Hh.
  exact (transparent _ _ _ _ _ _ _ _ _ (tc_valid_deg M conv) (tc_valid_fun M conv) (tc_load_ok M conv) (tc_init_ok M conv)
    (tc_extend_ok M conv) (tc_unpack_ok M conv) (same_tc M) (tc_same_of_good M conv) w h Hw Hh).
Qed.
Print Assumptions C18_tensor_conversion_history.

Theorem C18_cold_table : forall (M : Type) (conversion_matrices : nat -> M * M) L, (0 <= L)%Z ->
  exists t, cold_result (tc_generate M conversion_matrices) L = Ok t /\
  forall l, (Z.of_nat l <= L)%Z ->
    nth_error (tc_s2t M t) l = Some (fst (conversion_matrices l)) /\
    nth_error (tc_t2s M t) l = Some (snd (conversion_matrices l)).
Proof.
  intros M conv L HL.
  destruct (cold_ok _ _ (tc_load M) _ _ (tc_unpack M) _ _ (tc_init_ok M conv) (tc_extend_ok M conv) L HL) as [t [E [_ [H1 H2]]]].
  exists t. split; [exact E|]. intros l Hl. rewrite H1, H2.
  rewrite !nth_error_map, (nth_error_nth' _ 0) by (rewrite seq_length; lia). rewrite seq_nth by lia. auto.
Qed.
Print Assumptions C18_cold_table.

Theorem C18_cached_degree_never_decreases : forall (M : Type) (conversion_matrices : nat -> M * M) w h1 h2 p d,
  fresh_install (tc_generate M conversion_matrices) (tc_unpack M) w -> Forall uninterrupted (h1 ++ h2) ->
  stored_degree (tcf_max M) (fst (tc_run M conversion_matrices w h1)) p = Some d ->
  exists d', stored_degree (tcf_max M) (fst (tc_run M conversion_matrices w (h1 ++ h2))) p = Some d'
    /\ (Z.max (-1) d <= Z.max (-1) d')%Z.
Proof.
  intros M conv w h1 h2 p d.
  refine (never_decreases _ _ _ _ _ _ _ _ _ (tc_valid_deg M conv) (tc_valid_fun M conv) (tc_load_ok M conv) (tc_init_ok M conv)
    (tc_extend_ok M conv) (tc_unpack_ok M conv) (tcf_max M) _ w h1 h2 p d).
  intros c k [[H ->]|[L [-> [H _]]]]; lia.
Qed.
Print Assumptions C18_cached_degree_never_decreases.

Example C18_example :
  let conv := fun l => (10 + l, 20 + l) in
  fresh_install (tc_generate nat conv) (tc_unpack nat) empty_world /\
  (let '(w, rs) := tc_run nat conv empty_world toy_history in
   stored_degree (tcf_max nat) w "cg.npz" = Some 2%Z /\
   map (fun r => match r with Some (Ok t) => Some (tc_s2t nat t, tc_t2s nat t) | _ => None end) rs
   = [None; Some ([10; 11], [20; 21]); Some ([10], [20]); None; Some ([10; 11; 12], [20; 21; 22]); None;
      Some ([10; 11], [20; 21])]).
Proof. split; [split; [reflexivity|left; exists OSError; simpl; auto]|vm_compute; auto]. Qed.

(** * C19: crash during a save *)

(** The claim fails for every table and at every crash point: once the first save to a fresh path
    was interrupted (after any number of bytes), every later request with that path raises. *)
Theorem C19_crash_refuted : forall (A : Type) (zero : A) is_zero (value : cg_key -> A) sph_terms (M : Type) conv
    p k L s L' s' o',
  zero_test zero is_zero ->
  homogeneous_polynomials A sph_terms ->
  valid_schedule s -> (0 <= L)%Z -> (0 <= L')%Z ->
  let h := [SetPath (Some p); Request L s (IoKilled k); Request L' s' o'] in
  (exists e, snd (cg_run A zero is_zero value empty_world h) = [None; Some (Err Killed); Some (Err e)]
     /\ (e = EOFError \/ e = BadZipFile)) /\
  (exists e, snd (sh_run A zero is_zero sph_terms empty_world h) = [None; Some (Err Killed); Some (Err e)]
     /\ (e = EOFError \/ e = BadZipFile)) /\
  (exists e, snd (tc_run M conv empty_world h) = [None; Some (Err Killed); Some (Err e)]
     /\ (e = EOFError \/ e = BadZipFile)).
Proof.
  intros A zero is_zero value st M conv p k L s L' s' o' Hz Hp Hs HL HL' h. split; [|split].
  - destruct (crash_breaks _ _ (cg_load A zero) _ _ (cg_compress A is_zero) (cg_valid A zero value) _ _ (cg_init_ok A zero value)
      (cg_extend_ok A zero value) p k L s L' s' o' Hs HL HL') as [w' [e [E He]]].
    exists e. split; [|exact He]. unfold h, cg_run. rewrite E. reflexivity.
  - destruct (crash_breaks _ _ (sh_load A zero) _ _ (sh_compress A is_zero) (sh_valid A zero st) _ _ (sh_init_ok A zero is_zero Hz st (hp1 A st Hp) (hp2 A st Hp))
      (sh_extend_ok A zero is_zero Hz st (hp1 A st Hp) (hp2 A st Hp)) p k L s L' s' o' Hs HL HL') as [w' [e [E He]]].
    exists e. split; [|exact He]. unfold h, sh_run. rewrite E. reflexivity.
  - destruct (crash_breaks _ _ (tc_load M) _ _ (tc_unpack M) (tc_valid M conv) _ _ (tc_init_ok M conv)
      (tc_extend_ok M conv) p k L s L' s' o' Hs HL HL') as [w' [e [E He]]].
    exists e. split; [|exact He]. unfold h, tc_run. rewrite E. reflexivity.
Qed.
Print Assumptions C19_crash_refuted.

(** A failed write (disk full) is reported only in the log and has the same effect. *)
Theorem C19_write_error_refuted :
  exists h, h = [SetPath (Some "cg.npz"); Request 1 None (IoWriteFails 10); Request 1 None IoOk] /\
  match snd (cg_run Z 0%Z (Z.eqb 0) toy_value empty_world h) with
  | [None; Some (Ok _); Some (Err BadZipFile)] => True | _ => False end.
Proof. eexists. split; [reflexivity|]. vm_compute. exact I. Qed.
Print Assumptions C19_write_error_refuted.

(** What does hold: after any history with any failures, a request is answered as by a cold
    computation (or dies itself) provided the file at its path is not a torn one: no path, another
    path, or the damaged file has been deleted. *)
Theorem C19_undamaged_path_partial : forall (A : Type) (zero : A) is_zero (value : cg_key -> A) w h q L s o,
  zero_test zero is_zero ->
  fresh_install (cg_generate A zero is_zero value) (cg_compress A is_zero) w ->
  Forall any_failure h -> valid_schedule s ->
  let w1 := fst (cg_run A zero is_zero value w (h ++ [SetPath q])) in
  (forall p k, q = Some p -> files w1 p <> Some (Torn k)) ->
  let r := snd (cg_generate A zero is_zero value w1 L s o) in
  r = Err Killed \/ as_cold (same_cg A) (cold_result (cg_generate A zero is_zero value)) (Request L s o) (Some r).
Proof.
  intros A zero is_zero value w h q L s o Hz.
  exact (crash_elsewhere _ _ _ _ _ _ _ _ _ (cg_valid_deg A zero value) (cg_valid_fun A zero value)
    (cg_load_ok A zero value) (cg_init_ok A zero value) (cg_extend_ok A zero value)
    (cg_compress_ok A zero is_zero Hz value) (same_cg A) (cg_same_of_good A zero value) w h q L s o).
Qed.
Print Assumptions C19_undamaged_path_partial.

Theorem C19_undamaged_path_spherical_harmonics_partial : forall (A : Type) (zero : A) is_zero sph_terms w h q L s o,
  zero_test zero is_zero -> homogeneous_polynomials A sph_terms ->
  fresh_install (sh_generate A zero is_zero sph_terms) (sh_compress A is_zero) w ->
  Forall any_failure h -> valid_schedule s ->
  let w1 := fst (sh_run A zero is_zero sph_terms w (h ++ [SetPath q])) in
  (forall p k, q = Some p -> files w1 p <> Some (Torn k)) ->
  let r := snd (sh_generate A zero is_zero sph_terms w1 L s o) in
  r = Err Killed \/ as_cold (same_sh A) (cold_result (sh_generate A zero is_zero sph_terms)) (Request L s o) (Some r).
Proof.
  intros A zero is_zero st w h q L s o Hz Hp.
  exact (crash_elsewhere _ _ _ _ _ _ _ _ _ (sh_valid_deg A zero is_zero Hz st (hp1 A st Hp) (hp2 A st Hp)) (sh_valid_fun A zero is_zero Hz st (hp1 A st Hp) (hp2 A st Hp))
    (sh_load_ok A zero is_zero Hz st (hp1 A st Hp) (hp2 A st Hp)) (sh_init_ok A zero is_zero Hz st (hp1 A st Hp) (hp2 A st Hp))
    (sh_extend_ok A zero is_zero Hz st (hp1 A st Hp) (hp2 A st Hp))
    (sh_compress_ok A zero is_zero Hz st) (same_sh A) (sh_same_of_good A zero st) w h q L s o).
Qed.
Print Assumptions C19_undamaged_path_spherical_harmonics_partial.

Example C19_example :
  let h := [SetPath (Some "a.npz"); Request 1 None (IoKilled 7)] in
  Forall any_failure h /\
  (let w1 := fst (cg_run Z 0%Z (Z.eqb 0) toy_value empty_world (h ++ [SetPath (Some "b.npz")])) in
   files w1 "a.npz" = Some (Torn 7) /\ files w1 "b.npz" = None).
Proof. split; [repeat constructor|vm_compute; auto]. Qed.

(** * C20: compressed storage *)

Theorem C20_clebsch_gordan_storage : forall (A : Type) (zero : A) is_zero (t : cg_table A) L,
  zero_test zero is_zero ->
  exists t', cg_load A zero L (cg_compress A is_zero t) = Ok (Z.of_nat (cg_max A t), t') /\ cg_max A t' = L /\
  forall i j k, let n := (L + 1) * (L + 1) in let n0 := (cg_max A t + 1) * (cg_max A t + 1) in
    i < n -> j < n -> k < n ->
    (i < n0 /\ j < n0 /\ k < n0 -> cg_at A t' (i, j, k) = cg_at A t (i, j, k)) /\
    (~ (i < n0 /\ j < n0 /\ k < n0) -> cg_at A t' (i, j, k) = zero).
Proof.
  intros A zero is_zero t L Hz. destruct (cg_storage A zero is_zero Hz L t) as [t' [E [Hm H]]].
  exists t'. split; [exact E|]. split; [exact Hm|]. intros i j k n n0 Hi Hj Hk.
  assert (Hq : in3 (num_sph L) (i, j, k) = true) by (apply in3_iff; auto). rewrite (H _ Hq).
  pose proof (in3_iff (num_sph (cg_max A t)) (i, j, k)) as Hi3. change (num_sph (cg_max A t)) with n0 in *.
  destruct (in3 n0 (i, j, k)); simpl in Hi3; split; intros G; try reflexivity; exfalso;
    (try (assert (false = true) by tauto; discriminate)); tauto.
Qed.
Print Assumptions C20_clebsch_gordan_storage.

Theorem C20_spherical_harmonics_storage : forall (A : Type) (zero : A) is_zero (t : sh_table A) L,
  zero_test zero is_zero ->
  exists t', sh_load A zero L (sh_compress A is_zero t) = Ok (Z.of_nat (sh_max A t), t') /\ sh_max A t' = L /\
  (forall i j, i < num_car L -> j < num_sph L ->
    (i < num_car (sh_max A t) /\ j < num_sph (sh_max A t) -> sh_cm A t' (i, j) = sh_cm A t (i, j)) /\
    (~ (i < num_car (sh_max A t) /\ j < num_sph (sh_max A t)) -> sh_cm A t' (i, j) = zero)) /\
  (forall i, i < num_car L -> i < num_car (sh_max A t) -> sh_ls A t' i = sh_ls A t i).
Proof.
  intros A zero is_zero t L Hz. destruct (sh_storage A zero is_zero Hz L t) as [t' [E [Hm [H H']]]].
  exists t'. split; [exact E|]. split; [exact Hm|]. split; [|exact H'].
  intros i j Hi Hj. assert (Hq : in2 (num_car L) (num_sph L) (i, j) = true) by (apply in2_iff; auto). rewrite (H _ Hq).
  pose proof (in2_iff (num_car (sh_max A t)) (num_sph (sh_max A t)) (i, j)) as Hi2. simpl in Hi2.
  destruct (in2 (num_car (sh_max A t)) (num_sph (sh_max A t)) (i, j)); split; intros G; try reflexivity; exfalso.
  - tauto.
  - assert (false = true) by tauto. discriminate.
Qed.
Print Assumptions C20_spherical_harmonics_storage.

(** The Wigner-D table is stored block by block: the entries of the diagonal blocks (degree l rows
    and degree l columns) are kept, everything outside them comes back as zero. *)
Theorem C20_wigner_d_storage : forall (A : Type) (zero : A) is_zero (t : wd_table A) L,
  zero_test zero is_zero ->
  (* the table is block diagonal, as the computed ones are (C17_cold_table) *)
  (forall i j, (forall l, l <= wd_max A t -> ~ in_block l (i, j)) -> wd_cm A t (i, j) = zero) ->
  exists t', wd_load A zero L (wd_compress A is_zero t) = Ok (Z.of_nat (wd_max A t), t') /\ wd_max A t' = L /\
  (forall i j, i < num_rot L -> j < num_wig L ->
    (i < num_rot (wd_max A t) /\ j < num_wig (wd_max A t) -> wd_cm A t' (i, j) = wd_cm A t (i, j)) /\
    (~ (i < num_rot (wd_max A t) /\ j < num_wig (wd_max A t)) -> wd_cm A t' (i, j) = zero)) /\
  (forall i, i < num_rot L -> i < num_rot (wd_max A t) -> wd_ls A t' i = wd_ls A t i).
Proof.
  intros A zero is_zero t L Hz Hb. destruct (wd_storage A zero is_zero Hz L t) as [t' [E [Hm [H1 [H2 H3]]]]].
  exists t'. split; [exact E|]. split; [exact Hm|]. split; [|exact H3].
  assert (Hdec : forall n i j, (exists l, l <= n /\ in_block l (i, j)) \/ (forall l, l <= n -> ~ in_block l (i, j))).
  { intros n i j. 
    assert (D : forall l, in_block l (i, j) \/ ~ in_block l (i, j)) by (intros l; unfold in_block; simpl; lia).
    induction n as [|n [[l [Hl G]]|G]].
    - destruct (D 0); [left; exists 0; auto|right; intros l Hl; replace l with 0 by lia; assumption].
    - left. exists l. split; [lia|assumption].
    - destruct (D (S n)); [left; exists (S n); auto|]. right. intros l Hl.
      destruct (Nat.eq_dec l (S n)) as [->|]; [assumption|apply G; lia]. }
  assert (Hbd : forall n l i j, in_block l (i, j) -> i < num_rot n -> l <= n).
  { intros n l i j [[G _] _] Hi. simpl in G. rewrite num_rot_rowstart in Hi.
    destruct (Nat.le_gt_cases l n); [assumption|].
    pose proof (rowstart_mono rpow (n + 1) l ltac:(lia)). lia. }
  intros i j Hi Hj. split.
  - intros [Hi' Hj']. destruct (Hdec (wd_max A t) i j) as [[l [Hl G]]|G].
    + apply (H1 l); [now apply (Hbd L l i j)|assumption|assumption].
    + rewrite Hb by assumption. apply H2. intros l _ Hl. now apply G.
  - intros Hout. apply H2. intros l Hl Hl' [G1 G2]. apply Hout. simpl in *.
    rewrite num_rot_rowstart, num_wig_wc.
    pose proof (rowstart_mono rpow (S l) (wd_max A t + 1) ltac:(lia)) as R. rewrite rr_S in R.
    pose proof (wc_mono (S l) (wd_max A t + 1) ltac:(lia)) as R'. rewrite wc_S in R'. lia.
Qed.
Print Assumptions C20_wigner_d_storage.

Theorem C20_tensor_conversion_storage : forall (M : Type) (t : tc_table M) L,
  length (tc_s2t M t) = tc_max M t + 1 -> length (tc_t2s M t) = tc_max M t + 1 ->
  tc_load M L (tc_unpack M t) = Ok (Z.of_nat (tc_max M t),
    mkTC M L (firstn (L + 1) (tc_s2t M t)) (firstn (L + 1) (tc_t2s M t))).
Proof. intros M t L. apply tc_storage. Qed.
Print Assumptions C20_tensor_conversion_storage.

Example C20_example :
  let t := mkCG Z 1 (fun q => let '(i, j, k) := q in if (i =? 1)%nat then (Z.of_nat (j + k))%Z else 0%Z) in
  map (fun r => match r with Ok (d, t') => Some (d, cg_at Z t' (1, 2, 3), cg_at Z t' (1, 4, 4)) | Err _ => None end)
    [cg_load Z 0%Z 1 (cg_compress Z (Z.eqb 0) t); cg_load Z 0%Z 2 (cg_compress Z (Z.eqb 0) t)]
  = [Some (1, 5, 0); Some (1, 5, 0)]%Z.
Proof. vm_compute. reflexivity. Qed.

Example C20_wigner_example :
  exists t, cold_result (wd_generate Z 0%Z (Z.eqb 0) (nat * Z) (fun lm => lm) (fun p => p) toy_dot) 1 = Ok t /\
  wd_max Z t = 1%nat /\ wd_cm Z t (0, 0) = 10%Z /\ wd_cm Z t (9, 1) = 6%Z.
Proof. eexists. split; [reflexivity|]. vm_compute. auto. Qed.
