PARTIAL=set()
N['C04']="Python ints are modelled as naturals; everything else is PyOther."
