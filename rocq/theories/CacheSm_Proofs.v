(** An array walk on a shared space map. *)
From Verif Require Import IoMany_Proofs Base Csum_Model Codec_Model SpaceMap_Model Utils_Model Utils_Proofs Batcher_Model Builder_Model Builder_Spec BtreeBuild_Proofs Walker_Model Walker_Spec Walker_Proofs Props_Walker Array_Model Array_Spec Array_Proofs ArrayWalk_Proofs CacheCheck_Model.

Lemma wsm_inc_ok sm b : map_ok sm -> b < wsm_nr sm -> wcount sm b < wmax sm ->
  exists sm', wsm_inc sm b 1 = (sm', Ok tt) /\ wkind sm sm' /\ map_ok sm' /\ forall x, x < wsm_nr sm -> wcount sm' x = wcount sm x + (if x =? b then 1 else 0).
Proof.
  intros Hm Hb Hc. destruct (w_sm_inc b (mkwst sm (fun _ => None) [] : wst N)) as [s' r] eqn:E.
  assert (Hv : wvalid (w_sm (mkwst sm (fun _ => None) [] : wst N))) by (unfold wvalid; cbn [w_sm]; exact Hm).
  destruct (w_sm_inc_spec b (mkwst sm (fun _ => None) [] : wst N) s' r Hv E) as (_ & _ & H1 & H2 & H3 & H4). cbn [w_sm] in *.
  unfold w_sm_inc in E. cbn [w_sm w_fail w_log] in E.
  assert (Hr : r = Ok (wcount sm b)) by (destruct H4 as [[_ H]|[_ H]]; auto; destruct (H Hb); lia).
  destruct (wsm_get sm b) as [k| |]; [|injection E as _ Er; congruence|injection E as _ Er; congruence].
  destruct (wsm_inc sm b 1) as [sm' [[]| |]]; injection E as <- Er; try congruence. exists sm'. cbn [w_sm] in *. conj; auto.
  intros x Hx. rewrite H3 by auto. destruct Hm as (_ & _ & Hm). specialize (Hm x Hx). rewrite N.eqb_sym. destruct (N.eqb_spec x b) as [->|]; lia.
Qed.

Definition in_count (b : N) (l : list N) : N := if in_dec N.eq_dec b l then 1 else 0.
Lemma map_snd_comb_range (blocks : list N) : map snd (combine (range 0 (nlen blocks)) blocks) = blocks.
Proof.
  assert (H : forall (a : list N) (b : list N), length a = length b -> map snd (combine a b) = b).
  { induction a as [|x a IH]; intros [|y b] H; cbn [combine map snd]; try discriminate; auto. f_equal. apply IH. cbn in H. lia. }
  apply H. rewrite range_length. unfold nlen. lia.
Qed.
Section S.
Context {V S : Type} (c : codec V) (inf : bool) (eng : N -> option (list N)) (visit : S -> N -> array_block V -> S * bool).
Lemma visit_and_count_ok : forall kvs sm s, map_ok sm -> NoDup (map snd kvs) ->
  (forall b, In b (map snd kvs) -> eng b <> None -> b < wsm_nr sm /\ wcount sm b < wmax sm) ->
  exists sm', visit_and_count c eng visit sm s kvs = Ok (sm', fst (visit_array_blocks c eng visit s kvs), snd (visit_array_blocks c eng visit s kvs)) /\
    wkind sm sm' /\ map_ok sm' /\
    forall x, x < wsm_nr sm -> wcount sm x <= wcount sm' x <= wcount sm x + in_count x (map snd kvs) /\
      (snd (visit_array_blocks c eng visit s kvs) = [] -> wcount sm' x = wcount sm x + in_count x (map snd kvs)).
Proof using All.
  induction kvs as [|[i b] kvs IH]; intros sm s Hm HN Hb; cbn [visit_and_count visit_array_blocks map snd].
  { exists sm. conj; auto; [unfold wkind; auto|]. intros x Hx. unfold in_count. cbn. split; [lia|intros _; lia]. }
  cbn [map snd] in HN, Hb. inversion HN as [|? ? Hni HN']; subst.
  destruct (visit_array_block c eng visit s i b) as [s1 e] eqn:E. destruct e as [e|].
  - destruct (IH sm s1 Hm HN') as (sm' & E1 & E2 & E3 & E4). { intros x Hx. apply Hb. right. auto. }
    rewrite E1. cbn [bind]. exists sm'. destruct (visit_array_blocks c eng visit s1 kvs) as [s2 es]. cbn [fst snd]. conj; auto.
    intros x Hx. destruct (E4 x Hx) as [E5 _]. clear E4. split; [|discriminate]. unfold in_count in *. destruct (in_dec N.eq_dec x (map snd kvs)), (in_dec N.eq_dec x (b :: map snd kvs)) as [|n0]; try lia. exfalso. apply n0. right. auto.
  - assert (Hbe : eng b <> None) by (unfold visit_array_block in E; destruct (eng b); [discriminate|injection E; discriminate]).
    destruct (Hb b ltac:(left; auto) Hbe) as [H1 H2]. destruct (wsm_inc_ok sm b Hm H1 H2) as (sm1 & F1 & F2 & F3 & F4). rewrite F1.
    destruct F2 as (G1 & G2 & G3).
    destruct (IH sm1 s1 F3 HN') as (sm' & E1 & E2 & E3 & E4).
    { intros x Hx Hxe. rewrite G1, G2. destruct (Hb x ltac:(right; auto) Hxe). rewrite F4 by auto. destruct (N.eqb_spec x b); [subst; contradiction|]. split; auto. lia. }
    rewrite E1. exists sm'. destruct (visit_array_blocks c eng visit s1 kvs) as [s2 es]. cbn [fst snd]. conj; auto.
    + unfold wkind in *. rewrite <- G1, <- G2, <- G3. auto.
    + intros x Hx. rewrite G1 in E4. specialize (E4 x Hx). cbn [snd] in E4. rewrite F4 in E4 by auto. unfold in_count in *.
      assert (Hc : (if in_dec N.eq_dec x (b :: map snd kvs) then 1 else 0) = (if x =? b then 1 else 0) + (if in_dec N.eq_dec x (map snd kvs) then 1 else 0)).
      2:{ rewrite Hc. destruct E4 as [E4 E5]. split; [lia|]. intros Hz. specialize (E5 Hz). lia. }
      clear E4. destruct (N.eqb_spec x b) as [->|Hne].
      * destruct (in_dec N.eq_dec b (b :: map snd kvs)) as [_|Hx']; [|exfalso; apply Hx'; left; auto]. destruct (in_dec N.eq_dec b (map snd kvs)); [contradiction|lia].
      * destruct (in_dec N.eq_dec x (b :: map snd kvs)) as [[Hi|Hi]|Hi]; [congruence| |]; destruct (in_dec N.eq_dec x (map snd kvs)) as [Hi'|Hi']; try lia; [contradiction|]. exfalso; apply Hi; right; auto.
Qed.
Lemma array_walk_sm_index sm d depth root blocks foot s :
  tree u64_codec d true depth root (combine (range 0 (nlen blocks)) blocks) foot -> NoDup foot -> NoDup blocks ->
  map_ok sm -> nlen blocks < 2 ^ 64 -> (forall b, In b foot -> b < wsm_nr sm /\ wcount sm b = 0 /\ eng b = Some (d b)) ->
  (forall b, In b blocks -> eng b <> None -> b < wsm_nr sm /\ wcount sm b + 1 < wmax sm) ->
  exists sm', array_walk_sm c inf eng visit sm root s =
      Ok (sm', fst (visit_array_blocks c eng visit s (combine (range 0 (nlen blocks)) blocks)), snd (visit_array_blocks c eng visit s (combine (range 0 (nlen blocks)) blocks))) /\
    wkind sm sm' /\ map_ok sm' /\
    forall x, x < wsm_nr sm -> wcount sm x + in_count x foot <= wcount sm' x <= wcount sm x + in_count x foot + in_count x blocks /\
      (snd (visit_array_blocks c eng visit s (combine (range 0 (nlen blocks)) blocks)) = [] -> wcount sm' x = wcount sm x + in_count x foot + in_count x blocks).
Proof using All.
  intros HT HN HNb Hm Hk Hf Hb. unfold array_walk_sm.
  destruct (undamaged_walk_sm u64_codec inf eng d depth root _ foot [0] (mkwst sm (fun _ => None) []) HT HN) as (s' & calls & E & L & K & KL & KE & _ & (W1 & W2) & W3).
  - rewrite map_fst_combine; [apply range_increasing|]. rewrite range_length. unfold nlen. lia.
  - exact Hm.
  - exact Hf.
  - destruct (index_calls calls blocks 0 KL KE) as [J1 J2]. { rewrite N.add_0_l. auto. } { lia. }
    rewrite N.add_0_l in J1. cbn [w_log app w_sm] in *.
    assert (Ew : walk u64_codec inf eng av_accepts [0] root (mkwst sm (fun _ => None) []) = (s', None)).
    { eapply walk_same; [exact E|]. rewrite L. intros x log Hx. apply in_app_or in Hx as [Hx|[<-|[]]]; auto. }
    rewrite Ew, L. unfold accepted at 1. rewrite flat_map_app. fold (accepted calls). cbn [flat_map]. rewrite app_nil_r, J1.
    pose proof W1 as (Q1 & Q2 & Q3).
    destruct (visit_and_count_ok (combine (range 0 (nlen blocks)) blocks) (w_sm s') s W2) as (sm' & E1 & E2 & E3 & E4).
    + rewrite map_snd_comb_range. auto.
    + rewrite map_snd_comb_range. intros b Hin Hbe. rewrite Q1, Q2. destruct (Hb b Hin Hbe). split; auto. rewrite W3 by auto. destruct (in_dec N.eq_dec b foot); lia.
    + rewrite E1. cbn [bind]. rewrite app_nil_r. exists sm'. conj; auto.
      * unfold wkind in *. rewrite <- Q1, <- Q2, <- Q3. auto.
      * intros x Hx. rewrite Q1 in E4. specialize (E4 x Hx). rewrite W3 in E4 by auto. rewrite map_snd_comb_range in E4. unfold in_count in *. destruct E4 as [E4 E5]. split; [lia|]. intros Hz. specialize (E5 Hz). lia.
Qed.
End S.
Lemma check_sm_ok nr : 0 < nr < 2 ^ 64 -> wsm_nr (check_sm nr) = nr /\ wmax (check_sm nr) = 255 /\ map_ok (check_sm nr) /\ forall x, x < nr -> wcount (check_sm nr) x = if x =? 0 then 1 else 0.
Proof.
  intros Hnr. unfold check_sm. 
  destruct (wsm_inc_ok (WCore (sm_new nr 255)) 0) as (sm' & E & (K1 & K2 & K3) & H & C).
  - unfold map_ok. cbn [wsm_nr wmax wcount sm_new sm_nr sm_max sm_counts]. split; [lia|split; [lia|intros; lia]].
  - cbn [wsm_nr sm_new sm_nr]. lia.
  - cbn [wmax wcount sm_new sm_max sm_counts]. lia.
  - cbn [wsm_inc] in E. destruct (sm_inc (sm_new nr 255) 0 1) as [s r]. injection E as <- ->. cbn [fst]. split; [exact K1|]. split; [exact K2|]. split; [exact H|].
    intros x Hx. rewrite C by exact Hx. reflexivity.
Qed.
