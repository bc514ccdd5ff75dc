{
"C01": {"note": "all 15 classes and the base class, any arithmetic"},
"C02": {"note": "y[k]=predict needs np.dot commutative for AP; history lacks the final weights (refuted witness)"},
"C05": {"note": "holds for all classes but OCNLMS, for which it is refuted"},
"C06": {"note": "holds for all classes but OCNLMS, for which it is refuted"},
"C08": {"note": "plus two violations: a rejected run breaks VSLMS_Benveniste; AP/OCNLMS accept length-1 vectors"}
}
