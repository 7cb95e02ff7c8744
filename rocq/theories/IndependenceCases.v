(** A concrete grammar whose candidates overlap but share no related leaf. *)
From Verif Require Import Base EarleyModel EarleySpec TokenModel TreeModel ParserModel TreeSpec
  RelationSpec Cases RelationCases.
Open Scope nat_scope.

Lemma chain_never_raises :
  predict_sound chain /\ ~ nullable chain (TRule 0) /\
  (exists trees, gnc_parse chain 100 chain_text true = Some trees /\ relations_apply chain trees /\
    map snd trees = [(0, 2); (1, 3); (2, 4)]) /\
  option_map (fun r => let! (s, ms) := r in Ok (map m_range ms)) (gnc_findall chain 100 chain_text) =
    Some (Ok [(0, 2); (2, 4)]).
Proof.
  split; [apply list_sound|]. split; [apply list_no_nullable; reflexivity|].
  split; [|vm_compute; reflexivity].
  eexists. split; [vm_compute; reflexivity|]. split; [apply appliesb_true; vm_compute; reflexivity|reflexivity].
Qed.

Lemma chain_unshared :
  exists trees, gnc_parse chain 100 chain_text true = Some trees /\ unshared chain trees /\
  option_map (fun r => let! (s, ms) := r in Ok (map (fun m => (m_range m, forms_shown m)) ms))
    (gnc_findall chain 100 chain_text) = Some (Ok [((0, 2), [Some 1; Some 1]); ((2, 4), [Some 1; Some 1])]).
Proof.
  eexists. split; [vm_compute; reflexivity|]. split; [apply unsharedb_true; vm_compute; reflexivity|].
  vm_compute. reflexivity.
Qed.
