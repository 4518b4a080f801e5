F="AssembleModel.v"
MUTS=[
 dict(id="M025", file=F, definition="flat_grad_reg (maxlike_base.py:338)", old="let! grad1 := acc_grad sub grad pm gh in", new="let! grad1 := acc_grad (fun a b => sub a (sub (sub a a) b)) grad pm gh in", edit="regularization gradient added instead of subtracted", claim="C13"),
 dict(id="M026", file=F, definition="mask_free (maxlike_base.py:340)", old="Ok (bool_index d (map negb (p_mask p))) else", new="Ok (bool_index d (p_mask p)) else", edit="fixed entries selected instead of free ones", claim="C13"),
 dict(id="M027", file=F, definition="tri_pairs (maxlike_base.py:366)", old="map (pair i) (seq 0 (S i))", new="map (pair i) (seq 0 i)", edit="range(i) instead of range(i + 1): diagonal blocks of regularizations dropped", claim="C14"),
 dict(id="M028", file=F, definition="flat_hess (maxlike_base.py:398)", old="(blk j i)) (seq i (n - i))", new="(blk i j)) (seq i (n - i))", edit="upper blocks read from the wrong side", claim="C14"),
 dict(id="M029", file=F, definition="flat_hess (maxlike_base.py:414)", old="row ++ repeat zero (length cs)", new="row ++ repeat zero (length params)", edit="zero block sized by parameters instead of constraints", claim="C14"),
 dict(id="M030", file=F, definition="acc_hess (maxlike_base.py:367)", old="let! h := upd_hess op hess idx jdx b in", new="let! h := upd_hess op hess jdx idx b in", edit="swapped indices in hess[idx][param_map[j]]", claim="C14"),
 dict(id="M031", file=F, definition="outer_mask (maxlike_base.py:392)", old="negb a && negb b", new="negb a || negb b", edit="mask disjunction", claim="C14"),
 dict(id="M032", file=F, definition="flat_grad_con (maxlike_base.py:331)", old="rmap Some (sf_val g args)", new="rmap (fun _ => Some zero) (sf_val g args)", edit="constraint value replaced by the multiplier (0)", claim="C11, C13"),
 dict(id="M033", file=F, definition="flat_hess_con (maxlike_base.py:365)", old="params) pm gg in", new="params) pm (map (map (mul zero)) gg) in", edit="constraint gradient rows multiplied by gamma (0)", claim="C11, C14"),
 dict(id="M034", file=F, definition="flat_hess_reg (maxlike_base.py:375)", old="let! hess1 := acc_hess sub hess pm hh (tri_pairs (length pm)) in\n      flat_hess_reg params hess1 r", new="let! hess1 := acc_hess (fun a b => sub a (sub b b)) hess pm hh (tri_pairs (length pm)) in\n      flat_hess_reg params hess1 r", edit="regularization Hessian dropped", claim="C14"),
]
