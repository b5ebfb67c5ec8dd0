{
 "C04": {"note": "k_max>=1: proved. k_max=0: exact characterisation proved and a concrete failure exhibited."},
 "C08": {"note": "proved up to 999 tabulated values of l; beyond, the sentinel clash is exhibited."},
 "C09": {"note": "the full-equilibrium reading of flag 0 is refuted by a one-state model for every table size."}
}
