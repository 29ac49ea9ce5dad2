{
"update_loading|Gamma_r not stored by update_loading with Ct": {
"comment": "no claimed theorem failed at the time: the loading stored by update_loading was nowhere pinned down. Property C81 and its theorems were added for this reason and fail under this edit.",
"tightened": [
"C81_last_loading_wins",
"C81_stores_solution"
]
},
"rf_next|z halved instead of quartered in RF": {
"comment": "run against a snapshot taken before C42/C43 were proved; C42_RF_duplication and C42_RF_limit were added and fail under this edit (see the later entry).",
"tightened": [
"C42_RF_duplication",
"C42_RF_limit"
]
},
"dstep|first step uses k instead of C": {
"comment": "the edit only changes the run with bSwirl=False, which is C32; C31 and C33 are about bSwirl=True and rightly survive.",
"tightened": []
},
"InductionsFromCirculation_VC_Cont|rotational term integrated from the root": {
"comment": "no claimed theorem failed at the time (C40 is about the run without rotation). C116 was added, with the rotation term, and fails under this edit (see the later entry).",
"tightened": [
"C116_continuous_momentum",
"C116_tangential_induction"
]
},
"relerrinduction_25|sign of the station": {
"comment": "C111_at_one_station was stated for relerrinduction_at and did not pin the station of relerrinduction_25; tightened to name -2.5 (see the later entry).",
"tightened": [
"C111_at_one_station"
]
}
}