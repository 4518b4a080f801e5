MUTS = [
 dict(id="M001", file="ParamModel.v", definition="minus_arange/fix_map (maxlike_base.py:224-226)",
  old="Definition fix_map (m : list bool) : list nat := minus_arange 0 (positions_from 0 m).",
  new="Definition fix_map (m : list bool) : list nat := positions_from 0 m.",
  edit="fix_map returns raw positions (forgets the - arange)", claim="C01, C02, C03, C15"),
 dict(id="M002", file="ParamModel.v", definition="reshape_vals (maxlike_base.py:242-253)",
  old="let! qs := reshape_vals flat vals s1 f1 r in", new="let! qs := reshape_vals flat vals s1 f0 r in",
  edit="f_0 = f_1 forgotten: fixed values of the first parameter reused", claim="C01, C02"),
 dict(id="M003", file="ParamModel.v", definition="reshape_block (maxlike_base.py:279-283)",
  old="let! b2 := insert_cols b1 (fix_map (p_mask pj)) v in", new="let! b2 := insert_cols b1 (fix_map (p_mask pi)) v in",
  edit="val_map[i] used for the columns instead of val_map[j]", claim="C03"),
 dict(id="M004", file="ParamModel.v", definition="offsets (maxlike_base.py:267-273)",
  old="(s, p) :: offsets (s + p_count p) r", new="(s, p) :: offsets (s + length (p_mask p)) r",
  edit="block offsets advance by the full size instead of the free count", claim="C03"),
 dict(id="M005", file="ParamModel.v", definition="slice_neg (maxlike_base.py:318)",
  old="| Some c => Ok (firstn (length l - c) l)", new="| Some c => Ok (skipn c l)",
  edit="diagonal cut at the wrong end ([cut:] instead of [:-cut])", claim="C15"),
 dict(id="M006", file="ParamModel.v", definition="dof (maxlike_base.py:183-185)",
  old="+ nb_extra_params - Z.of_nat n_constraints", new="+ nb_extra_params + Z.of_nat n_constraints",
  edit="constraints added instead of subtracted", claim="C16"),
 dict(id="M007", file="ParamModel.v", definition="std_error (maxlike_base.py:309-319)",
  old="let! d := slice_neg (diag_of (map_mat neg iv)) cut in", new="let! d := slice_neg (diag_of (map_mat (fun x => neg (neg x)) iv)) cut in",
  edit="sign dropped: sqrt(diag(inv)) instead of sqrt(diag(-inv))", claim="C15"),
 dict(id="M008", file="ParamModel.v", definition="std_error (maxlike_base.py:314)",
  old="| None => Raise TypeError ", new="| None => Ok l ",
  edit="no-constraint case repaired", claim="C15 (refuted part)"),
 dict(id="M009", file="ParamModel.v", definition="reshape_matrix (maxlike_base.py:264)",
  old="if negb (r =? c) then Raise ValueError", new="if r =? S c then Raise ValueError",
  edit="squareness check wrong", claim="C03 (non-square raises)"),
]
